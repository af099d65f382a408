(* Cost.v - the trie walks of Trie.v instrumented with the number of nodes
   visited: one per activation of the (recursive) method on a non-nil receiver.
   Each instrumented function returns the result of the original one
   (the *_erase lemmas), so the counts are the counts of the modelled code. *)
From Verif Require Export TableProof TableThm.
From Coq Require Import Arith ZifyBool ZifyNat ZifyN.

Section Cost.
Variable W : N.
Context {T : Type}.

(* ipv4/node.go:215-241 Match *)
Fixpoint Match_c (me : trie T) (k : prefix) : option (prefix * option T) * N :=
  match me with
  | Nil => (None, 0)
  | Node p d s h a l r =>
    if plen k <? plen p then (None, 1)
    else
      let '(matches, exact, _, child) := contains W p k in
      if negb matches then (None, 1)
      else
        let '(sub, n) := if negb exact then Match_c (kid child l r) k else (None, 0) in
        match sub with
        | Some better => (Some better, 1 + n)
        | None => (if negb a then None else Some (p, d), 1 + n)
        end
  end.

(* ipv4/node.go:367-469 insert (without flatten, as used by tables) *)
Fixpoint insert_c (me : trie T) (np : prefix) (nd : option T) (o : insertOpts)
  : res (trie T * option terr) * N :=
  match me with
  | Nil => (Ok (insert_nil np nd o), 0)
  | Node p d s h a l r =>
    let '(result, reversed, common, child) := compare W p np in
    match result with
    | compareSame =>
      (if a && negb (o_update o) then Ok (me, Some ErrExists)
      else if negb a && negb (o_insert o) then Ok (me, Some ErrNoKeyToUpdate)
      else if o_flatten o then Ok (me, None)
      else
        keep <- (if a then o_eq o d nd else Ok false) ;;
        Ok (mk np (if keep then d else nd) true l r, None), 1)
    | compareContains =>
      if o_flatten o && a then (Ok (me, None), 1)
      else
        let '(sub, n) := insert_c (kid child l r) np nd o in
        ('(newChild, err) <- sub ;;
        match err with
        | Some e => Ok (me, Some e)
        | None =>
          n <- mk_opt (o_flatten o) p d a (setl child newChild l) (setr child newChild r) ;;
          Ok (n, None)
        end, 1 + n)
    | compareIsContained =>
      (if negb (o_insert o) then Ok (me, Some ErrNoKeyToUpdate)
      else
        n <- mk_opt (o_flatten o) np nd true (setl child me Nil) (setr child me Nil) ;;
        Ok (n, None), 1)
    | compareDisjoint =>
      (let '(newChild, err) := insert_nil np nd o in
      match err with
      | Some e => Ok (me, Some e)
      | None =>
        let '(x, y) := if xorb child reversed then (me, newChild) else (newChild, me) in
        n <- mk_opt (o_flatten o) (join_prefix W p common) None false x y ;;
        Ok (n, None)
      end, 1)
    end
  end.

(* ipv4/node.go:162-173 *)
Definition goi_insert_c (me : trie T) (k : prefix) (v : option T) : res (trie T * option T) * N :=
  let '(r, n) := insert_c me k v {| o_insert := true; o_update := false; o_flatten := false; o_eq := nil_eq |} in
  ('(head, err) <- r ;; match err with None => Ok (head, v) | Some _ => Panic end, n).
(* ipv4/node.go:161-199 GetOrInsert *)
Fixpoint GetOrInsert_c (me : trie T) (k : prefix) (v : option T) : res (trie T * option T) * N :=
  match me with
  | Nil => goi_insert_c me k v
  | Node p d s h a l r =>
    if plen k <? plen p then let '(x, n) := goi_insert_c me k v in (x, 1 + n)
    else
      let '(matches, exact, _, child) := contains W p k in
      if negb matches then let '(x, n) := goi_insert_c me k v in (x, 1 + n)
      else if negb exact then
        let '(sub, n) := GetOrInsert_c (kid child l r) k v in
        ('(newChild, result) <- sub ;;
        Ok (mk p d a (setl child newChild l) (setr child newChild r), result), 1 + n)
      else if negb a then let '(x, n) := goi_insert_c me k v in (x, 1 + n)
      else (Ok (me, d), 1)
  end.

(* ipv4/node.go:485-556 del *)
Fixpoint del_c (me : trie T) (k : prefix) : trie T * option terr * N :=
  match me with
  | Nil => (Nil, Some ErrDeleteNil, 0)
  | Node p d s h a l r =>
    let '(result, _, _, child) := compare W p k in
    match result with
    | compareSame =>
      if is_nil l then (r, None, 1)
      else if is_nil r then (l, None, 1)
      else (mk p None false l r, None, 1)
    | compareContains =>
      let '(newChild, err, n) := del_c (kid child l r) k in
      match err with
      | Some e => (me, Some e, 1 + n)
      | None =>
        if is_nil newChild && negb a then (kid (negb child) l r, None, 1 + n)
        else (mk p d a (setl child newChild l) (setr child newChild r), None, 1 + n)
      end
    | compareIsContained => (me, Some ErrKeyNotFound, 1)
    | compareDisjoint => (me, Some ErrKeyNotFound, 1)
    end
  end.

(* ---- the instrumentation does not change results ---- *)
Lemma Match_erase t k : fst (Match_c t k) = Match W t k.
Proof.
  induction t as [|p d s h a l IHl r IHr]; cbn [Match_c Match]; [reflexivity|].
  destruct (plen k <? plen p); [reflexivity|]. destruct (contains W p k) as [[[m e] c] ch].
  destruct (negb m); [reflexivity|].
  assert (IH : fst (Match_c (kid ch l r) k) = Match W (kid ch l r) k) by (destruct ch; auto).
  destruct (negb e).
  - destruct (Match_c (kid ch l r) k) as [sub n]. cbn in IH. rewrite <- IH. destruct sub; reflexivity.
  - reflexivity.
Qed.
Lemma insert_erase t np nd o : fst (insert_c t np nd o) = insert W t np nd o.
Proof.
  induction t as [|p d s h a l IHl r IHr]; cbn [insert_c insert]; [reflexivity|].
  destruct (compare W p np) as [[[res rev] common] ch]. destruct res; try reflexivity.
  destruct (o_flatten o && a); [reflexivity|].
  assert (IH : fst (insert_c (kid ch l r) np nd o) = insert W (kid ch l r) np nd o) by (destruct ch; auto).
  destruct (insert_c (kid ch l r) np nd o) as [sub n]. cbn in IH. rewrite <- IH. reflexivity.
Qed.
Lemma goi_insert_erase t k v : fst (goi_insert_c t k v) = goi_insert W t k v.
Proof.
  unfold goi_insert_c, goi_insert, Insert. rewrite <- insert_erase.
  destruct (insert_c _ _ _ _) as [x n]. reflexivity.
Qed.
Lemma GetOrInsert_erase t k v : fst (GetOrInsert_c t k v) = GetOrInsert W t k v.
Proof.
  induction t as [|p d s h a l IHl r IHr]; cbn [GetOrInsert_c GetOrInsert]; [apply goi_insert_erase|].
  rewrite <- !goi_insert_erase. destruct (goi_insert_c _ k v) as [x n].
  destruct (plen k <? plen p); [reflexivity|]. destruct (contains W p k) as [[[m e] c] ch].
  destruct (negb m); [reflexivity|].
  assert (IH : fst (GetOrInsert_c (kid ch l r) k v) = GetOrInsert W (kid ch l r) k v) by (destruct ch; auto).
  destruct (negb e).
  - destruct (GetOrInsert_c (kid ch l r) k v) as [sub n']. cbn in IH. rewrite <- IH. reflexivity.
  - destruct (negb a); reflexivity.
Qed.
Lemma del_erase t k : fst (del_c t k) = del W t k.
Proof.
  induction t as [|p d s h a l IHl r IHr]; cbn [del_c del]; [reflexivity|].
  destruct (compare W p k) as [[[res rev] common] ch]. destruct res; try reflexivity.
  - destruct (is_nil l); [reflexivity|]. destruct (is_nil r); reflexivity.
  - assert (IH : fst (del_c (kid ch l r) k) = del W (kid ch l r) k) by (destruct ch; auto).
    destruct (del_c (kid ch l r) k) as [[x e] n]. cbn in IH. rewrite <- IH. destruct e; [reflexivity|].
    destruct (is_nil x && negb a); reflexivity.
Qed.

(* ---- bounds by the depth of the trie ---- *)
Lemma Match_cost t k : snd (Match_c t k) <= depth t.
Proof.
  induction t as [|p d s h a l IHl r IHr]; cbn [Match_c]; [cbn; lia|].
  assert (D : depth (Node p d s h a l r) = 1 + N.max (depth l) (depth r)) by reflexivity. rewrite D. clear D.
  destruct (plen k <? plen p); [cbn [snd]; lia|]. destruct (contains W p k) as [[[m e] c] ch].
  destruct (negb m); [cbn [snd]; lia|].
  destruct (negb e).
  - destruct (Match_c (kid ch l r) k) as [sub n] eqn:E.
    assert (n <= N.max (depth l) (depth r)) by (destruct ch; cbn [kid] in E; rewrite E in *; cbn [snd] in *; lia).
    destruct sub; cbn [snd]; lia.
  - cbn [snd]. lia.
Qed.
Lemma insert_cost t np nd o : snd (insert_c t np nd o) <= depth t.
Proof.
  induction t as [|p d s h a l IHl r IHr]; cbn [insert_c]; [cbn; lia|].
  assert (D : depth (Node p d s h a l r) = 1 + N.max (depth l) (depth r)) by reflexivity. rewrite D. clear D.
  destruct (compare W p np) as [[[res rev] common] ch]. destruct res; try (cbn [snd]; lia).
  destruct (o_flatten o && a); [cbn [snd]; lia|].
  destruct (insert_c (kid ch l r) np nd o) as [sub n] eqn:E.
  assert (n <= N.max (depth l) (depth r)) by (destruct ch; cbn [kid] in E; rewrite E in *; cbn [snd] in *; lia).
  cbn [snd]; lia.
Qed.
Lemma goi_cost t k v : snd (goi_insert_c t k v) <= depth t.
Proof.
  unfold goi_insert_c. pose proof (insert_cost t k v {| o_insert := true; o_update := false; o_flatten := false; o_eq := nil_eq |}) as H.
  destruct (insert_c _ _ _ _) as [x n]. exact H.
Qed.
Lemma del_cost t k : snd (del_c t k) <= depth t.
Proof.
  induction t as [|p d s h a l IHl r IHr]; cbn [del_c]; [cbn; lia|].
  assert (D : depth (Node p d s h a l r) = 1 + N.max (depth l) (depth r)) by reflexivity. rewrite D. clear D.
  destruct (compare W p k) as [[[res rev] common] ch]. destruct res; try (cbn [snd]; lia).
  - destruct (is_nil l); [cbn [snd]; lia|]. destruct (is_nil r); cbn [snd]; lia.
  - destruct (del_c (kid ch l r) k) as [[x e] n] eqn:E.
    assert (n <= N.max (depth l) (depth r)) by (destruct ch; cbn [kid] in E; rewrite E in *; cbn [snd] in *; lia).
    destruct e; [cbn [snd]; lia|]. destruct (is_nil x && negb a); cbn [snd]; lia.
Qed.

Hypothesis HW : 0 < W /\ W < 2 ^ 15.

(* where GetOrInsert falls back to inserting, the insertion ends at that node *)
Lemma goi_cost1 p d s h a l r k v : wf_prefix W p -> wf_prefix W k ->
  key W p = key W k \/ ~ pre (key W p) (key W k) -> snd (goi_insert_c (Node p d s h a l r) k v) = 1.
Proof.
  intros Hp Hk H. unfold goi_insert_c. cbn [insert_c].
  pose proof (compare_spec W HW p k Hp Hk) as C.
  destruct C as [E|c x E|c x E|q c ra rb rev E1 E2 Er]; try reflexivity.
  exfalso. destruct H as [H|H].
  - rewrite H in E. apply (f_equal (@length bool)) in E. rewrite app_length in E. cbn in E. lia.
  - apply H. rewrite E. apply pre_app_r.
Qed.
Lemma GetOrInsert_cost t : forall k0 k v, wf W k0 t -> wf_prefix W k -> snd (GetOrInsert_c t k v) <= depth t + 1.
Proof.
  induction t as [|p d s h a l IHl r IHr]; intros k0 k v Hw Hk; cbn [GetOrInsert_c].
  - cbn. lia.
  - assert (D : depth (Node p d s h a l r) = 1 + N.max (depth l) (depth r)) by reflexivity. rewrite D. clear D.
    pose proof Hw as (Hp & _ & _ & _ & _ & Hl & Hr).
    destruct (N.ltb_spec (plen k) (plen p)) as [Lt|Ge].
    { assert (X : snd (goi_insert_c (Node p d s h a l r) k v) = 1).
      { apply goi_cost1; auto. right. intros P. apply pre_length in P. rewrite !key_length in P. lia. }
      destruct (goi_insert_c _ k v) as [x n]. cbn [snd] in *. lia. }
    destruct (contains_spec W HW p k Hp Hk Ge) as [[E ->]|[(c & x & E & ->)|(q & c & rs & rl & E1 & E2 & ->)]]; cbn [negb].
    + destruct a; cbn [negb]; [cbn [snd]; lia|].
      assert (X : snd (goi_insert_c (Node p d s h false l r) k v) = 1) by (apply goi_cost1; auto).
      destruct (goi_insert_c _ k v) as [x n]. cbn [snd] in *. lia.
    + destruct (GetOrInsert_c (kid c l r) k v) as [sub n] eqn:G.
      assert (n <= N.max (depth l) (depth r) + 1).
      { destruct c; cbn [kid] in G.
        - specialize (IHr _ k v Hr Hk). rewrite G in IHr. cbn [snd] in IHr. lia.
        - specialize (IHl _ k v Hl Hk). rewrite G in IHl. cbn [snd] in IHl. lia. }
      cbn [snd]. lia.
    + assert (X : snd (goi_insert_c (Node p d s h a l r) k v) = 1).
      { apply goi_cost1; auto. right. rewrite E1, E2. apply pre_fork_not'. }
      destruct (goi_insert_c _ k v) as [x n]. cbn [snd] in *. lia.
Qed.
End Cost.
