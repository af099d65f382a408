(* KeyMore.v - more on bit-string keys: halves, ranges of addresses. *)
From Verif Require Export WF.
From Coq Require Import Arith ZifyBool ZifyNat ZifyN.

Section KM.
Variable W : N.
Notation key := (key W).

Lemma pow_split n : n < W -> 2 ^ (W - n) = 2 * 2 ^ (W - n - 1).
Proof. intros H. replace (W - n) with (N.succ (W - n - 1)) at 1 by lia. apply N.pow_succ_r'. Qed.

Lemma val_key_lt p : wf_prefix W p -> val (key p) < 2 ^ plen p.
Proof. intros H. rewrite <- (nlen_key W p). apply val_lt. Qed.

Notation half := (half W).

Lemma half_addr c p : wf_prefix W p -> plen p < W ->
  paddr (half c p) = (val (key p) * 2 + if c then 1 else 0) * 2 ^ (W - plen p - 1).
Proof.
  intros Hp Hl. cbn. rewrite (net_key W) by auto. rewrite (pow_split _ Hl). destruct c; lia.
Qed.

Lemma half_wf c p : wf_prefix W p -> plen p < W -> wf_prefix W (half c p).
Proof.
  intros Hp Hl. split; [|cbn; lia]. rewrite half_addr by auto.
  pose proof (val_key_lt _ Hp) as H.
  assert (E : 2 ^ W = 2 ^ (plen p + 1) * 2 ^ (W - plen p - 1)) by (rewrite <- N.pow_add_r; f_equal; lia).
  rewrite E. apply N.mul_lt_mono_pos_r; [apply N.neq_0_lt_0, N.pow_nonzero; lia|].
  rewrite N.add_1_r, N.pow_succ_r'. destruct c; lia.
Qed.

Lemma key_half c p : wf_prefix W p -> plen p < W -> key (half c p) = key p ++ [c].
Proof.
  intros Hp Hl. pose proof (half_wf c p Hp Hl) as Hh.
  apply val_inj.
  - apply Nat2N.inj. change (nlen (key (half c p)) = nlen (key p ++ [c])).
    rewrite nlen_app, !(nlen_key W). reflexivity.
  - rewrite (val_key W) by auto. rewrite half_addr by auto. cbn [plen half].
    replace (W - (plen p + 1)) with (W - plen p - 1) by lia.
    rewrite N.div_mul by (apply N.pow_nonzero; lia).
    rewrite val_app. unfold nlen; cbn. change (2 ^ 1) with 2. destruct c; cbn; reflexivity.
Qed.

Lemma covers_half c p q : wf_prefix W p -> plen p < W -> wf_prefix W q ->
  covers W (half c p) q <-> pre (key p ++ [c]) (key q).
Proof.
  intros Hp Hl Hq. rewrite <- key_half by auto. apply covers_pre; auto. apply half_wf; auto.
Qed.
End KM.
