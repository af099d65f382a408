(* ExSet2.v - concrete cases for C52 and the refutation of its full statement. *)
From Verif Require Import PropsSet2 ExSet.
From Coq Require Import Arith Lia ZifyBool ZifyNat ZifyN.

Lemma W32' : ip_width 32. Proof. left. reflexivity. Qed.
(* S1 = {10.0.0.0/24, 10.0.2.0/23} *)
Lemma S1_stored : stored S1 = [pfx 10 0 0 0 24; pfx 10 0 2 0 23]. Proof. reflexivity. Qed.
Example C52_remove_ex : snode_remove 32 never_s S1 (pfx 10 0 3 0 25) = set_Difference 32 never_s S1 (Some (PrefixSet (pfx 10 0 3 0 25))) /\
  mem 32 S1 (ip4 10 0 3 5) /\ (exists u, snode_remove 32 never_s S1 (pfx 10 0 3 0 25) = Ok u /\ ~ mem 32 u (ip4 10 0 3 5) /\ mem 32 u (ip4 10 0 3 128)).
Proof.
  assert (WP : wf_prefix 32 (pfx 10 0 3 0 25)) by wfp.
  assert (M : forall a q, a < 2 ^ 32 -> In q (stored S1) -> in_prefix 32 q a -> mem 32 S1 a) by (intros a q La I H; split; [exact La|exists q; auto]).
  destruct (C52_remove 32 W32' never_s S1 (pfx 10 0 3 0 25) never_s_ok S1_value WP) as (u & E & D & _ & MU).
  split; [congruence|]. split; [apply (M _ (pfx 10 0 2 0 23)); [reflexivity|rewrite S1_stored; cbn [In]; auto|reflexivity]|].
  exists u. split; [exact E|]. split; rewrite MU.
  - intros [_ N]. apply N. reflexivity.
  - split; [apply (M _ (pfx 10 0 2 0 23)); [reflexivity|rewrite S1_stored; cbn [In]; auto|reflexivity]|discriminate].
Qed.
(* inserting 10.0.1.0/24 makes the /22 *)
Example C52_insert_ex : ~ half_filled 32 S1 (pfx 10 0 1 0 24) /\ snode_insert 32 S1 (pfx 10 0 1 0 24) = Ok (setNodeFromPrefix (pfx 10 0 0 0 22)).
Proof.
  split; [|reflexivity]. intros (_ & (a & I & (_ & q & Q & J)) & _). rewrite S1_stored in Q; cbn [In] in Q. unfold in_prefix in I, J.
  change (a / 128 = 1310722) in I. destruct Q as [<-|[<-|[]]].
  - change (a / 256 = 655360) in J. assert (D : a / 128 / 2 = a / 256) by (rewrite N.div_div by lia; reflexivity). rewrite I, J in D. discriminate D.
  - change (a / 512 = 327681) in J. assert (D : a / 128 / 4 = a / 512) by (rewrite N.div_div by lia; reflexivity). rewrite I, J in D. discriminate D.
Qed.
(* inserting 10.0.0.0/22 is lost: the full statement of C52 is false *)
Lemma S1_half_filled : half_filled 32 S1 (pfx 10 0 0 0 22).
Proof.
  split; [reflexivity|].
  assert (M : forall a q, a < 2 ^ 32 -> In q (stored S1) -> in_prefix 32 q a -> mem 32 S1 a) by (intros a q La I H; split; [exact La|exists q; auto]).
  split; [exists (ip4 10 0 0 1); split; [reflexivity|apply (M _ (pfx 10 0 0 0 24)); [reflexivity|rewrite S1_stored; cbn [In]; auto|reflexivity]]|].
  split; [exists (ip4 10 0 2 1); split; [reflexivity|apply (M _ (pfx 10 0 2 0 23)); [reflexivity|rewrite S1_stored; cbn [In]; auto|reflexivity]]|].
  intros F. destruct (F (ip4 10 0 1 1) ltac:(reflexivity)) as (_ & q & Q & J). rewrite S1_stored in Q; cbn [In] in Q. destruct Q as [<-|[<-|[]]]; discriminate J.
Qed.
Theorem C52_insert_refuted : ~ (forall s p, set_value 32 s -> wf_prefix 32 p ->
  exists u, snode_insert 32 s p = Ok u /\ forall a, mem 32 u a <-> mem 32 s a \/ in_prefix 32 p a).
Proof.
  intros H. destruct (H S1 (pfx 10 0 0 0 22) S1_value ltac:(wfp)) as (u & E & M).
  destruct (C52_insert_dropped 32 W32' S1 (pfx 10 0 0 0 22) S1_value ltac:(wfp) S1_half_filled) as (E' & a & I & N).
  rewrite E' in E. injection E as <-. apply N, M. right. exact I.
Qed.
