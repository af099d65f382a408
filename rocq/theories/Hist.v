(* Hist.v - running histories of calls on the table model, the tables a program
   can obtain, and the invariant they satisfy. *)
From Verif Require Export TableSpec Table DiffChar.
From Coq Require Import Arith Sorted ZifyBool ZifyNat ZifyN.

Section Hist.
Variable W : N.
Context {T : Type}.
Variable zeroT : T.
Variable box : T -> option T.
Variable goeq : T -> T -> res bool.

(* one call on a Table_ *)
Definition exec (m : option (tableX T)) (o : op T) : res (option (tableX T) * outcome T) :=
  match o with
  | OpInsert p v => '(m', b) <- tbl_Insert W box m p v ;; Ok (m', OutBool b)
  | OpUpdate p v => '(m', b) <- tbl_Update W box m p v ;; Ok (m', OutBool b)
  | OpInsertOrUpdate p v => m' <- tbl_InsertOrUpdate W box m p v ;; Ok (m', OutNone)
  | OpGetOrInsert p v => '(m', x) <- tbl_GetOrInsert W zeroT box m p v ;; Ok (m', OutVal x)
  | OpRemove p => '(m', b) <- tbl_Remove W m p ;; Ok (m', OutBool b)
  end.
Fixpoint runs (m : option (tableX T)) (os : list (op T)) : res (option (tableX T) * list (outcome T)) :=
  match os with
  | [] => Ok (m, [])
  | o :: os' =>
    '(m1, r) <- exec m o ;;
    '(m2, rs) <- runs m1 os' ;;
    Ok (m2, r :: rs)
  end.

(* a modifying call keeps the handle initialised and its comparator *)
Lemma exec_some t o m' x : exec (Some t) o = Ok (m', x) -> exists t', m' = Some t' /\ tx_eq t' = tx_eq t.
Proof.
  destruct o; cbn [exec]; unfold tbl_Insert, tbl_Update, tbl_InsertOrUpdate, tbl_GetOrInsert, tbl_Remove.
  - destruct (Insert _ _ _ _) as [[h e]| |]; cbn [bind]; try discriminate. destruct e; cbn [bind]; intros [= <- <-]; eauto.
  - destruct (Update _ _ _ _) as [[h e]| |]; cbn [bind]; try discriminate. destruct e; cbn [bind]; intros [= <- <-]; eauto.
  - destruct (InsertOrUpdate _ _ _ _) as [h| |]; cbn [bind]; try discriminate. intros [= <- <-]; eauto.
  - destruct (GetOrInsert _ _ _ _) as [[h e]| |]; cbn [bind]; try discriminate. intros [= <- <-]; eauto.
  - destruct (del _ _ _) as [h e]; cbn [bind]. intros [= <- <-]; eauto.
Qed.

(* the tables a program can obtain.  A Table and the contents of a Table_ are
   both a tableX.  Each use of Aggregate may see any pointer equality that only
   equates equal nodes. *)
Inductive reachable : tableX T -> Prop :=
| reach_zero : reachable zero_table
| reach_new t : NewTable_ goeq = Some t -> reachable t
| reach_custom g t : NewTableCustomCompare_ g = Some t -> reachable t
| reach_op t o t' x : reachable t -> wf_prefix W (op_prefix o) -> exec (Some t) o = Ok (Some t', x) -> reachable t'
| reach_Table_ t t' : reachable t -> Table_ goeq t = Some t' -> reachable t'
| reach_aggregate (peq : trie T -> trie T -> bool) t t' :
    (forall a b, peq a b = true -> a = b) ->
    reachable t -> tbl_Aggregate peq t = Ok t' -> reachable t'
| reach_map (S : Type) (st st' : S) mapper t t' :
    reachable t -> tbl_Map zeroT box t mapper st = Ok (st', t') -> reachable t'.
End Hist.
