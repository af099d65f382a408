(* ConcTableProof.v - the heap programs of ConcTable.v compute the functions on
   values, whatever other threads do meanwhile (programs_ok of ConcProof.v). *)
From Verif Require Export ConcTable ConcProof HeapProof2.
From Verif Require Import TableThm PropsTable.
From Coq Require Import Arith ZifyBool ZifyNat ZifyN.
Local Open Scope prog_scope.

Section P.
Variable W : N.
Hypothesis IPW : ip_width W.
Context {T : Type}.
Variable zeroT : T.
Variable box : T -> option T.
Hypothesis Hbox : forall v, unbox zeroT (box v) = v.
Variable goeq : T -> T -> res bool.
(* == on T does not panic, and is equality *)
Hypothesis Hgoeq : forall x y, exists b, goeq x y = Ok b /\ (b = true <-> x = y).
Notation aset := (nat -> Prop).
Notation hp := (heap T).
Notation ieq := (defaultComparator goeq).
Notation unbox := (unbox zeroT).
Notation reachable := (reachable W zeroT box goeq).
Let HW : 0 < W /\ W < 2 ^ 15 := ip_HW W IPW.

Lemma ieq_is_ok : ieq_ok ieq.
Proof.
  intros [a|] [b|]; cbn.
  - destruct (Hgoeq a b) as (x & E & H). exists x. split; auto. intros ->. f_equal. apply H. reflexivity.
  - exists false. split; auto; discriminate.
  - exists false. split; auto; discriminate.
  - exists true. split; auto.
Qed.

Definition t_vok (t : tableX T) : Prop := reachable t /\
  ((exists g, decides box t g /\ forall v, g v v = true) \/ (tx_eq t = None /\ tx_trie t = Nil)).
Notation crep := (crep (V := tableX T) (E := option (comparator T)) tx_trie tx_eq t_vok).

Lemma default_decides t : tx_eq t = Some ieq -> exists g, decides box t g /\ forall v, g v v = true.
Proof.
  intros E. exists (fun a b => match ieq (box a) (box b) with Ok b => b | _ => false end). split.
  - intros a b. rewrite E. cbn [ceq]. destruct (ieq_is_ok (box a) (box b)) as (x & -> & _). reflexivity.
  - intros v. cbn. destruct (box v) as [x|]; cbn; auto. destruct (Hgoeq x x) as (b & -> & H). apply H. reflexivity.
Qed.

Lemma wf_of t : t_vok t -> wf W [] (tx_trie t).
Proof. intros [R _]. apply (rwf W IPW zeroT box goeq _ R). Qed.
Lemma dep t : t_vok t -> (HeapLogic.depth (tx_trie t) < pathW W)%nat.
Proof. intros H. eapply depth_wf; eauto using wf_of. Qed.


(* the comparator of a handle is never nil *)
Definition t_wok (e : option (comparator T)) : Prop := exists c, e = Some c.
Lemma vok_exec t o t' x : t_vok t -> t_wok (tx_eq t) -> wf_prefix W (op_prefix o) -> exec W zeroT box (Some t) o = Ok (Some t', x) ->
  t_vok t' /\ tx_eq t' = tx_eq t.
Proof.
  intros [R G] [c Ec] Hp E. destruct (exec_some _ _ _ _ _ _ _ E) as (t2 & E2 & Eq). injection E2 as <-. split; [split|auto].
  - eapply reach_op; eauto.
  - destruct G as [(g & D & Rf)|[G1 G2]]; [|congruence]. left. exists g. split; auto. unfold decides in *. rewrite Eq. auto.
Qed.

Notation wpost := (wpost (Out := tout T) tx_trie tx_eq t_vok).
(* a successful call stored the tree t' *)
Lemma post_store S h p (t : tableX T) (t' : trie T) o x : t_vok t -> t_wok (tx_eq t) -> wf_prefix W (op_prefix o) ->
  exec W zeroT box (Some t) o = Ok (Some (set_trie t t'), x) -> repr S h p t' -> crep S h (p, tx_eq t) (set_trie t t').
Proof. intros Hv Hk Hp E R. destruct (vok_exec _ _ _ _ Hv Hk Hp E) as [V1 V2]. split; [exact R|]. split; auto. Qed.

Lemma write_ok : forall c o a S h x v xs vs, t_call_ok W box goeq (KWrite (Some c) o a) -> dom S h -> crep S h x v -> t_wok (tx_eq v) ->
  Forall2 (crep S h) xs vs -> length a = length xs ->
  wpi S h (t_wprog W zeroT box goeq o x xs) (wpost (tx_eq v) (t_wfun W zeroT box o v vs)).
Proof.
  intros c o a S h [p e] t xs vs [Hp _] D (R & Ee & Hv) Hk _ _. cbn [fst snd] in R, Ee. subst e.
  pose proof (wf_of _ Hv) as Hw. pose proof (dep _ Hv) as Hd.
  assert (PS := fun S h p t' o x => post_store S h p t t' o x Hv Hk).
  unfold t_wprog, t_wfun. destruct o as [q v|q v|q v|q v|q]; cbn [exec op_prefix] in *.
  - specialize (PS). unfold tbl_Insert. apply wpi_bind. eapply wpi_conseq; [eapply (wpi_Insert W _ ieq_is_ok HW); eauto|].
    intros r S' h' X. assert (Z := PS S' h').
    destruct (Insert W (tx_trie t) (prefixI q) (box v)) as [[t' err]| |] eqn:E, r as [[p' err']| |]; try contradiction; cbn [bind]; auto.
    destruct X as [X1 X2]. cbn [fst snd] in X1, X2. subst err'. destruct err; cbn [bind]; apply wpi_ret; [reflexivity|].
    split; auto. eapply (Z p' t' (OpInsert q v)); auto. cbn [exec]. unfold tbl_Insert. rewrite E. reflexivity.
  - unfold tbl_Update. apply wpi_bind. eapply wpi_conseq; [eapply (wpi_Update W _ ieq_is_ok HW); eauto|].
    intros r S' h' X. assert (Z := PS S' h').
    destruct (Update W (tx_trie t) (prefixI q) (box v) _) as [[t' err]| |] eqn:E, r as [[p' err']| |]; try contradiction; cbn [bind]; auto.
    destruct X as [X1 X2]. cbn [fst snd] in X1, X2. subst err'. destruct err; cbn [bind]; apply wpi_ret; [reflexivity|].
    split; auto. eapply (Z p' t' (OpUpdate q v)); auto. cbn [exec]. unfold tbl_Update. rewrite E. reflexivity.
  - unfold tbl_InsertOrUpdate. apply wpi_bind. eapply wpi_conseq; [eapply (wpi_InsertOrUpdate W _ ieq_is_ok HW); eauto|].
    intros r S' h' X. assert (Z := PS S' h').
    destruct (InsertOrUpdate W (tx_trie t) (prefixI q) (box v) _) as [t'| |] eqn:E, r as [p'| |]; try contradiction; cbn [bind]; auto.
    apply wpi_ret. split; auto. eapply (Z p' t' (OpInsertOrUpdate q v)); auto. cbn [exec]. unfold tbl_InsertOrUpdate. rewrite E. reflexivity.
  - unfold tbl_GetOrInsert. apply wpi_bind. eapply wpi_conseq; [eapply (wpi_GetOrInsert W _ ieq_is_ok HW); eauto|].
    intros r S' h' X. assert (Z := PS S' h').
    destruct (GetOrInsert W (tx_trie t) (prefixI q) (box v)) as [[t' d]| |] eqn:E, r as [[p' r']| |]; try contradiction; cbn [bind]; auto.
    destruct X as [X1 (i & n & X2 & X3 & X4 & X5)]. cbn [fst snd] in X1, X2, X5. subst r'.
    eapply wpi_load; [exact X3|exact X4|]. rewrite X5. apply wpi_ret.
    split; auto. eapply (Z p' t' (OpGetOrInsert q v)); auto. cbn [exec]. unfold tbl_GetOrInsert. rewrite E. reflexivity.
  - unfold tbl_Remove. apply wpi_bind. eapply wpi_conseq; [eapply (wpi_del W _ ieq_is_ok HW); eauto|].
    intros r S' h' X. assert (Z := PS S' h').
    destruct (del W (tx_trie t) (prefixI q)) as [t' err] eqn:E, r as [[p' err']| |]; try contradiction; cbn [bind]; auto.
    destruct X as [X1 X2]. cbn [fst snd] in X1, X2. subst err'. apply wpi_ret. split; auto.
    eapply (Z p' t' (OpRemove q)); auto. cbn [exec]. unfold tbl_Remove. rewrite E. reflexivity.
Qed.

Lemma find_ok S h p (t : tableX T) q : dom S h -> repr S h p (tx_trie t) -> t_vok t ->
  wpi S h (t_find W p q) (fun r _ _ => r = Ok (Match W (tx_trie t) (prefixI q))).
Proof.
  intros D R Hv. pose proof (dep _ Hv) as Hd. unfold t_find. apply wpi_bind.
  eapply wpi_conseq; [eapply (wpi_Match W HW); eauto|]. intros r S' h' X. destruct r as [n| |]; try contradiction. cbn [rel r_match] in X.
  destruct (Match W (tx_trie t) (prefixI q)) as [[np d]|], n as [i|]; try contradiction; [|apply wpi_ret; reflexivity].
  destruct X as (n & X1 & X2 & <- & <-). eapply wpi_load; [exact X1|exact X2|]. apply wpi_ret. reflexivity.
Qed.

Lemma NumNodes_prog S h p (t : trie T) : repr S h p t -> wpi S h (n <- h_NumNodes p ;; ret (@ONum T n)) (rpost (Ok (ONum (NumNodes t)))).
Proof. intros R. eapply wpi_NumNodes; [exact R|]. apply wpi_ret. reflexivity. Qed.


(* Walk and Diff: the callbacks only see prefixes and unboxed data *)
Lemma run_list_ext {A St} (f g : A -> St -> St * bool) : (forall x s, f x s = g x s) -> forall l st, run_list f l st = run_list g l st.
Proof. intros H. induction l as [|x l IH]; intros st; cbn [run_list]; auto. rewrite H. destruct (g x st) as [st' [|]]; auto. Qed.
Lemma run_list_map {A B St} (f : B -> St -> St * bool) (g : A -> B) : forall l st, run_list f (map g l) st = run_list (fun x => f (g x)) l st.
Proof. induction l as [|x l IH]; intros st; cbn [run_list map]; auto. destruct (f (g x) st) as [st' [|]]; auto. Qed.

Definition react (hc hl hr hu : bool) (go : list (report T) -> bool) (e : event T) (st : list (report T)) : list (report T) * bool :=
  match e with
  | ERemoved p d => seen_if hl go (RRemoved p (unbox d)) st
  | EAdded p d => seen_if hr go (RAdded p (unbox d)) st
  | EModified p _ d d' => seen_if hc go (RChanged p (unbox d) (unbox d')) st
  | ESame p _ d _ => seen_if hu go (RUnchanged p (unbox d)) st
  end.

Lemma Diff_tree (f : option T -> option T -> bool) (hc hl hr hu : bool) (go : list (report T) -> bool) (l r : tableX T) (st : list (report T)) :
  okpair f (ceq (tx_eq l)) (tx_trie l) (tx_trie r) -> (hu = false -> forall d, f d d = true) -> t_vok l -> t_vok r ->
  tbl_Diff W zeroT (fun _ _ => false) l r
        (if hc then Some (fun p v v' => seen go (RChanged p v v')) else None)
        (if hl then Some (fun p v => seen go (RRemoved p v)) else None)
        (if hr then Some (fun p v => seen go (RAdded p v)) else None)
        (if hu then Some (fun p v => seen go (RUnchanged p v)) else None) st
  = Ok (run_list (react hc hl hr hu go) (devs W f (fuelW W) (tx_trie l) (tx_trie r)) st).
Proof.
  intros OK Sk Hl Hr. unfold tbl_Diff, Diff.
  set (S := list (report T)).
  set (c1 := fun g : prefix -> T -> S -> S * bool => fun p d => g p (unbox d)).
  set (c2 := fun g : prefix -> T -> T -> S -> S * bool => fun p d d' => g p (unbox d) (unbox d')).
  match goal with |- diff _ _ _ _ _ (wrap {| Removed := option_map _ ?lf; Added := option_map _ ?rt; Modified := option_map _ ?ch; Same := option_map _ ?un |} _) _ = _ =>
    pose proof (diff_run W f (fun _ _ => false) ltac:(discriminate) (option_map c1 lf) (option_map c1 rt) (option_map c1 un) (option_map c2 ch)
      (ceq (tx_eq l))) as X end.
  replace {| Removed := _; Added := _; Modified := _; Same := _ |}
    with {| Removed := on1 (option_map c1 (if hl then Some (fun p v => seen go (RRemoved p v)) else None));
            Added := on1 (option_map c1 (if hr then Some (fun p v => seen go (RAdded p v)) else None));
            Modified := on2 (option_map c2 (if hc then Some (fun p v v' => seen go (RChanged p v v')) else None));
            Same := on1 (option_map c1 (if hu then Some (fun p v => seen go (RUnchanged p v)) else None)) |}
    by (destruct hl, hr, hc, hu; reflexivity).
  rewrite X.
  - f_equal. apply run_list_ext. intros [] s; destruct hl, hr, hc, hu; reflexivity.
  - destruct hu; [discriminate|auto].
  - exact OK.
  - apply (fuel_ok W IPW zeroT box Hbox goeq); apply wf_of; auto.
Qed.

(* a comparison function for the left table *)
Lemma diff_fun l r (hu : bool) : t_vok l -> t_vok r -> exists f,
  okpair f (ceq (tx_eq l)) (tx_trie l) (tx_trie r) /\ forall d, f d d = true.
Proof.
  intros [Rl [(g & D & Rf)|[G1 G2]]] [Rr _].
  - exists (fg zeroT g). split; [|intros d; apply Rf].
    pose proof (rinv W IPW zeroT box goeq _ Rl) as [_ Bl]. pose proof (rinv W IPW zeroT box goeq _ Rr) as [_ Br].
    intros e e' He He'. pose proof (boxed_entries _ _ _ Bl He) as [v Ev]. pose proof (boxed_entries _ _ _ Br He') as [v' Ev'].
    unfold fg. rewrite Ev, Ev', !Hbox. apply D.
  - exists (fun _ _ => true). split; auto. rewrite G2. intros e e' [].
Qed.

Lemma read_ok : forall y r a S h x v xs vs, t_call_ok W box goeq (KRead y r a) -> dom S h -> orep tx_trie tx_eq t_vok S h x v ->
  Forall2 (crep S h) xs vs -> length a = length xs ->
  wpi S h (t_rprog W zeroT r x xs) (rpost (t_rfun W zeroT r v vs)).
Proof.
  intros y r a S h x v xs vs Hc D Hx Hxs La. destruct x as [[p e]|], v as [t|]; try contradiction.
  - destruct Hx as (R & Ee & Hv). cbn [fst snd] in R, Ee. subst e. destruct r as [|q|q|go|hc hl hr hu go]; cbn [t_rprog t_rfun].
    + apply NumNodes_prog. exact R.
    + apply wpi_bind. eapply wpi_conseq; [eapply find_ok; eauto|]. intros r S' h' ->. cbn.
      unfold tx_Get, longestMatch. destruct (Match W (tx_trie t) (prefixI q)) as [[np d]|]; [|apply wpi_ret; reflexivity].
      destruct (plen np =? plen (prefixI q)); apply wpi_ret; reflexivity.
    + apply wpi_bind. eapply wpi_conseq; [eapply find_ok; eauto|]. intros r S' h' ->. cbn.
      unfold tx_LongestMatch, longestMatch. destruct (Match W (tx_trie t) (prefixI q)) as [[np d]|]; [|apply wpi_ret; reflexivity].
      destruct (plen np =? plen (prefixI q)); apply wpi_ret; reflexivity.
    + unfold tbl_Walk. rewrite (Walk_run W HW (fun _ _ => true) (fun _ _ => false) [] (tx_trie t) _ _ ltac:(discriminate) (wf_of _ Hv)). cbn [bind].
      apply wpi_bind. eapply wpi_conseq.
      * unfold h_Walk, h_Diff. eapply (wpi_diff W _ _ (fun _ _ => true)) with (l := Nil) (r := tx_trie t); auto.
        -- reflexivity.
        -- intros e e' [].
        -- apply (fuel_ok W IPW zeroT box Hbox goeq); [exact I|apply wf_of; auto].
      * intros r S' h' (-> & -> & ->). cbn [hRemoved hAdded hModified hSame].
        destruct (run_list _ (devs _ _ _ _ _) _) as [l b] eqn:E. apply wpi_ret. unfold rpost.
        pose proof (wf_of _ Hv) as Hw. pose proof (Walk_run W HW (fun _ _ => true) (fun _ _ => false) [] (tx_trie t) (fun pr d st => seen go (pr, unbox d) st) [] ltac:(discriminate) Hw) as E2.
        unfold Walk, Diff in E2.
        pose proof (diff_run W (fun _ _ => true) (fun _ _ => false) ltac:(discriminate) None (Some (fun pr d st => seen go (pr, unbox d) st)) None None
                (fun _ _ => Ok false) (fun _ _ => eq_refl) (fuelW W) Nil (tx_trie t) []) as E3.
        unfold on1, on2, option_map in E3. rewrite E3 in E2.
        -- injection E2 as E2. idtac. match goal with |- _ = Ok (OWalk (fst ?a) (snd ?a)) => assert (EA : a = (l, b)); [|rewrite EA; reflexivity] end. etransitivity; [exact (eq_sym E2)|]. rewrite <- E. apply run_list_ext. intros [] s; reflexivity.
        -- intros e e' [].
        -- apply (fuel_ok W IPW zeroT box Hbox goeq); [exact I|apply wf_of; auto].
    + destruct Hc as [_ [s ->]]. cbn in La. destruct xs as [|[q eq] [|? ?]]; try discriminate. inversion Hxs as [|? t2 ? ? (R2 & Ee2 & Hv2) H0]; subst. inversion H0; subst.
      destruct (diff_fun t t2 hu Hv Hv2) as (f & OK & Sk).
      rewrite (Diff_tree f) by auto. cbn [bind]. apply wpi_bind. eapply wpi_conseq.
      * unfold h_Diff. eapply (wpi_diff W _ _ f) with (l := tx_trie t) (r := tx_trie t2); auto.
        apply (fuel_ok W IPW zeroT box Hbox goeq); apply wf_of; auto.
      * intros r S' h' (-> & -> & ->). cbn [hRemoved hAdded hModified hSame].
        erewrite run_list_ext.
        { instantiate (1 := react hc hl hr hu go). destruct (run_list _ (devs _ _ _ _ _) _) as [l b] eqn:E. apply wpi_ret. reflexivity. }
        intros [] s0; destruct hu; reflexivity.
  - destruct r as [|q|q|go|hc hl hr hu go]; cbn [t_rprog t_rfun]; try (apply wpi_ret; reflexivity).
    + reflexivity.
    + reflexivity.
Qed.

Lemma build_ok : forall b a S h xs vs, t_call_ok W box goeq (KBuild b a) -> dom S h -> Forall2 (crep S h) xs vs -> length a = length xs ->
  wpi S h (t_bprog W zeroT box goeq b xs) (bpost (t_bfun zeroT box) tx_trie tx_eq t_vok b vs (t_bext b xs)).
Proof.
  intros [St mapper st] a S h xs vs [s ->] D Hxs La. cbn in La. destruct xs as [|[p e] [|? ?]]; try discriminate.
  inversion Hxs as [|? t ? ? (R & Ee & Hv) H0]; subst. inversion H0; subst. cbn [fst snd] in R, Ee. subst e.
  cbn [t_bprog t_bext]. destruct mapper as [g|].
  - apply wpi_bind. eapply wpi_conseq; [eapply (wpi_Map _ ieq_is_ok); eauto; apply dep; auto|].
    intros r S' h' X. unfold bpost, t_bfun, tbl_Map.
    destruct (Map (tx_trie t) _ _ st) as [[st' n]| |] eqn:E, r as [[s2 p2]| |]; try contradiction; cbn [bind].
    + destruct X as [X1 X2]. cbn [fst snd] in X1, X2. apply wpi_ret. eexists. split; [reflexivity|]. cbn [snd]. split; [exact X2|]. split; [reflexivity|].
      assert (HR : reachable {| tx_trie := n; tx_eq := tx_eq t |}).
      { destruct Hv as [HR _]. eapply (reach_map W zeroT box goeq St st st' (Some g) t); [exact HR|]. unfold tbl_Map. rewrite E. reflexivity. }
      split; [exact HR|]. destruct Hv as [_ [(f & D1 & Rf)|[G1 G2]]].
      * left. exists f. split; auto.
      * right. split; auto. cbn. rewrite G2 in E. cbn in E. congruence.
    + eexists. split; [reflexivity|exact I].
    + eexists. split; [reflexivity|exact I].
  - apply wpi_ret. eexists. split; [reflexivity|]. cbn. split; auto.
Qed.

Lemma table_programs : programs_ok (t_wprog W zeroT box goeq) (t_rprog W zeroT) (t_bprog W zeroT box goeq) None t_bext (t_thaw goeq) (t_call_ok W box goeq)
  (t_wfun W zeroT box) (t_rfun W zeroT) (t_bfun zeroT box) (zero_table (T := T)) t_new (t_thawed goeq) tx_trie tx_eq t_vok t_wok.
Proof.
  constructor.
  - intros [] []; cbn; congruence.
  - intros S h. split; [reflexivity|]. split; [reflexivity|]. split; [constructor|right; auto].
  - intros S h e [->|(g & -> & Rf & Hn)]; (split; [split; [reflexivity|split; [reflexivity|split]]|eexists; reflexivity]).
    + eapply reach_new. reflexivity.
    + left. apply default_decides. reflexivity.
    + eapply reach_custom. reflexivity.
    + left. exists g. split; auto. intros a b. cbn. destruct (Hn a) as [x Ex], (Hn b) as [y Ey]. rewrite Ex, Ey. cbn.
      pose proof (Hbox a) as Ba. pose proof (Hbox b) as Bb. rewrite Ex in Ba. rewrite Ey in Bb. cbn in Ba, Bb. congruence.
  - intros S h p e t s _ (R & Ee & Hr & G). cbn [fst snd] in R, Ee. subst e. split.
    + split; [exact R|]. split; [reflexivity|]. split; [eapply reach_Table_; [exact Hr|reflexivity]|].
      unfold t_thawed, t_thaw. destruct (tx_eq t) as [c|] eqn:Ec.
      * destruct G as [(g & D & Rf)|[G1 G2]]; [|discriminate]. left. exists g. split; auto. intros a b. cbn. specialize (D a b). rewrite Ec in D. exact D.
      * left. apply default_decides. reflexivity.
    + unfold t_thaw. destruct (tx_eq t); eexists; reflexivity.
  - intros o [p e] vs. eapply ownp_owns with any. destruct o; cbn [t_wprog].
    + apply ownp_bind_any; [apply ownp_Insert|]. intros [n [err|]] O _; apply ownp_ret_any.
    + apply ownp_bind_any; [apply ownp_Update|]. intros [n [err|]] O _; apply ownp_ret_any.
    + apply ownp_bind_any; [apply ownp_InsertOrUpdate|]. intros n O _; apply ownp_ret_any.
    + apply ownp_bind_any; [apply ownp_GetOrInsert|]. intros [n r] O _. apply ownp_bind_any; [apply ownp_load|]. intros; apply ownp_ret_any.
    + apply ownp_bind_any; [apply ownp_del|]. intros [n err] O _; apply ownp_ret_any.
  - intros r x vs. eapply ownp_owns with any.
    assert (F : forall p q O, ownp O (@t_find W T p q) any).
    { intros p q O. unfold t_find. apply ownp_bind_any; [apply ownp_Match|]. intros [n|] O' _; [|apply ownp_ret_any].
      apply ownp_bind_any; [apply ownp_load|]. intros; apply ownp_ret_any. }
    destruct x as [[p e]|], r; cbn [t_rprog]; try apply ownp_ret_any; try apply ownp_lift_any.
    + apply ownp_bind_any; [apply ownp_NumNodes|]. intros; apply ownp_ret_any.
    + apply ownp_bind_any; [apply F|]. intros [[np d]|] O _; [|apply ownp_ret_any]. destruct (_ =? _); apply ownp_ret_any.
    + apply ownp_bind_any; [apply F|]. intros [[np d]|] O _; apply ownp_ret_any.
    + apply ownp_bind_any; [apply ownp_diff|]. intros [l b] O _; apply ownp_ret_any.
    + destruct vs as [|[q eq] [|? ?]]; try apply ownp_lift_any. apply ownp_bind_any; [apply ownp_diff|]. intros [l b] O _; apply ownp_ret_any.
  - intros [St mapper st] vs. eapply ownp_owns with any. cbn [t_bprog]. destruct vs as [|[q eq] [|? ?]]; try apply ownp_lift_any.
    destruct mapper; [|apply ownp_ret_any]. apply ownp_bind_any; [apply ownp_Map|]. intros [l b] O _; apply ownp_ret_any.
  - exact write_ok.
  - exact read_ok.
  - exact build_ok.
Qed.
End P.
