(* HeapCbPure.v - the programs of HeapCb.v with callbacks that touch no node are
   those of Heap.v: the two models of diff, Diff and Walk agree. *)
From Verif Require Export HeapCb.
From Verif Require Import HeapCost HeapCbProof.
From Coq Require Import Arith.
Local Open Scope prog_scope.

Section Pure.
Variable W : N.
Context {T : Type}.
Variable ieq : option T -> option T -> res bool.

Definition pureH {S} (H : hHandler (T := T) S) : eHandler (T := T) S :=
  {| eRemoved := fun p d s => ret (hRemoved H p d s); eAdded := fun p d s => ret (hAdded H p d s);
     eModified := fun p d d' s => ret (hModified H p d d' s);
     eSame := option_map (fun f p d s => ret (f p d s)) (hSame H) |}.

Lemma ei_removed {S} (H : hHandler S) n st : ei_Removed (pureH H) n st = hi_Removed H n st. Proof. reflexivity. Qed.
Lemma ei_added {S} (H : hHandler S) n st : ei_Added (pureH H) n st = hi_Added H n st. Proof. reflexivity. Qed.
Lemma ei_modified {S} (H : hHandler S) eq l r st : ei_Modified (pureH H) eq l r st = hi_Modified H eq l r st.
Proof. unfold ei_Modified, hi_Modified, pureH. cbn [eSame eModified eRemoved eAdded]. destruct (hSame H); reflexivity. Qed.

Lemma run_after {A B} (m : prog T A) (f g : A -> prog T B) h : readonly m ->
  (forall x, run (f x) h = run (g x) h) -> run (pbind m f) h = run (pbind m g) h.
Proof. intros R E. rewrite !run_pbind, (ro_run m R h). destruct (snd (run m h)); auto. Qed.
Lemma ret_bind {A B} (x : A) (f : A -> prog T B) : pbind (ret x) f = f x. Proof. reflexivity. Qed.
Lemma load_known {A} i (k : hnode T -> prog T A) h n : nth_error h i = Some n -> run (pbind (load (Some i)) k) h = run (k n) h.
Proof. intros E. cbn. rewrite E. reflexivity. Qed.

Lemma run_ok_bind {A B} (m : prog T A) (f : A -> prog T B) h x : run m h = (h, Ok x) -> run (pbind m f) h = run (f x) h.
Proof. intros E. rewrite run_pbind, E. reflexivity. Qed.
Lemma children_known i (h : heap T) (n : hnode T) : nth_error h i = Some n -> run (h_children (Some i)) h = (h, Ok (hc0 n, hc1 n)).
Proof. intros E. cbn. rewrite E. reflexivity. Qed.

Theorem diffE_pure {S} (H : hHandler (T := T) S) (eq : comparator T) : forall fuel l r st h,
  run (h_diffE W fuel l r (pureH H) eq st) h = run (h_diff W fuel l r H eq st) h.
Proof.
  induction fuel as [|f IH]; intros l r st h; [reflexivity|].
  cbn [h_diffE h_diff].
  assert (ES : match eSame (pureH H) with None => true | Some _ => false end = match hSame H with None => true | Some _ => false end)
    by (unfold pureH; cbn [eSame]; destruct (hSame H); reflexivity).
  rewrite ES. destruct (_ && _); [reflexivity|].
  assert (TAIL : forall a b c d st1,
    run ('(st2, go2) <- h_diffE W f a b (pureH H) eq st1 ;; if negb go2 then ret (st2, false) else
         '(st3, go3) <- h_diffE W f c d (pureH H) eq st2 ;; if negb go3 then ret (st3, false) else ret (st3, true)) h =
    run ('(st2, go2) <- h_diff W f a b H eq st1 ;; if negb go2 then ret (st2, false) else
         '(st3, go3) <- h_diff W f c d H eq st2 ;; if negb go3 then ret (st3, false) else ret (st3, true)) h).
  { intros a b c d st1. rewrite !run_pbind, IH. rewrite (ro_run _ (ro_diff W H eq f a b st1) h).
    destruct (snd (run (h_diff W f a b H eq st1) h)) as [[st2 g2]| |]; auto. destruct (negb g2); [reflexivity|].
    rewrite !run_pbind, IH. reflexivity. }
  destruct l as [i|], r as [j|]; [| | |reflexivity].
  - destruct (nth_error h i) as [n|] eqn:En; [|cbn; rewrite En; reflexivity].
    rewrite !(load_known i _ h n En).
    destruct (nth_error h j) as [n'|] eqn:En'; [|cbn; rewrite En'; reflexivity].
    rewrite !(load_known j _ h n' En').
    pose proof (children_known i h n En) as Ci. pose proof (children_known j h n' En') as Cj.
    destruct (compare W (hPrefix n) (hPrefix n')) as [[[res ?] ?] child]. destruct res.
    1: rewrite ei_modified; apply run_after; [apply ro_modified|].
    2: rewrite ei_removed; apply run_after; [apply ro_removed|].
    3: rewrite ei_added; apply run_after; [apply ro_added|].
    4: apply run_after; [exact I|].
    all: intros [st1 [|]]; cbn [negb]; [|reflexivity].
    + rewrite (run_ok_bind _ _ h ((hc0 n, hc1 n), (hc0 n', hc1 n'))); [apply TAIL|].
      rewrite (run_ok_bind _ _ h _ Ci), (run_ok_bind _ _ h _ Cj). reflexivity.
    + rewrite (run_ok_bind _ _ h ((hc0 n, hc1 n), at_child child (Some j))); [destruct child; apply TAIL|].
      rewrite (run_ok_bind _ _ h _ Ci). reflexivity.
    + rewrite (run_ok_bind _ _ h (at_child child (Some i), (hc0 n', hc1 n'))); [destruct child; apply TAIL|].
      rewrite (run_ok_bind _ _ h _ Cj). reflexivity.
    + rewrite ret_bind. destruct child; apply TAIL.
  - destruct (nth_error h i) as [n|] eqn:En; [|cbn; rewrite En; reflexivity].
    rewrite !(load_known i _ h n En), ei_removed. apply run_after; [apply ro_removed|]. intros [st1 [|]]; cbn [negb]; [|reflexivity].
    rewrite (run_ok_bind _ _ h ((hc0 n, hc1 n), at_child false None)); [apply TAIL|].
    rewrite (run_ok_bind _ _ h _ (children_known i h n En)). reflexivity.
  - destruct (nth_error h j) as [n|] eqn:En; [|cbn; rewrite En; reflexivity].
    rewrite !(load_known j _ h n En), ei_added. apply run_after; [apply ro_added|]. intros [st1 [|]]; cbn [negb]; [|reflexivity].
    rewrite (run_ok_bind _ _ h (at_child false None, (hc0 n, hc1 n))); [apply TAIL|].
    rewrite (run_ok_bind _ _ h _ (children_known j h n En)). reflexivity.
Qed.
Theorem WalkE_pure {S} p (cb : prefix -> option T -> S -> S * bool) st h :
  run (h_WalkE W p (fun q d s => ret (cb q d s)) st) h = run (h_Walk W p cb st) h.
Proof. unfold h_WalkE, h_DiffE, h_Walk, h_Diff. rewrite <- diffE_pure. reflexivity. Qed.
End Pure.
