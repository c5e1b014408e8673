(** Parts of checked trees, and what is assigned to in them. *)
From Coq Require Import String List Bool PeanoNat.
From Verif Require Import TypeModel TypeSpec CheckModel CheckSpec.
Import ListNotations.

(** A part of a tree: an expression or a statement. *)
Inductive part := AnExpr (e : cexpr) | AStmt (k : cstmt).
(** [has x y]: [y] is just below [x]. *)
Inductive has : part -> part -> Prop :=
| has_arith_l o l r : has (AnExpr (CArith o l r)) (AnExpr l)
| has_arith_r o l r : has (AnExpr (CArith o l r)) (AnExpr r)
| has_logic_l o l r : has (AnExpr (CLogic o l r)) (AnExpr l)
| has_logic_r o l r : has (AnExpr (CLogic o l r)) (AnExpr r)
| has_cmp_l o l r : has (AnExpr (CCmp o l r)) (AnExpr l)
| has_cmp_r o l r : has (AnExpr (CCmp o l r)) (AnExpr r)
| has_not e : has (AnExpr (CNot e)) (AnExpr e)
| has_bnot e : has (AnExpr (CBNot e)) (AnExpr e)
| has_neg e : has (AnExpr (CNeg e)) (AnExpr e)
| has_callee f args : has (AnExpr (CCall f args)) (AnExpr f)
| has_arg f args e : In e args -> has (AnExpr (CCall f args)) (AnExpr e)
| has_print args e : In e args -> has (AnExpr (CPrint args)) (AnExpr e)
| has_unsafe args e : In e args -> has (AnExpr (CUnsafe args)) (AnExpr e)
| has_field e n x : has (AnExpr (CField e n x)) (AnExpr e)
| has_length e : has (AnExpr (CLength e)) (AnExpr e)
| has_deref e : has (AnExpr (CDeref e)) (AnExpr e)
| has_index_l l r : has (AnExpr (CIndex l r)) (AnExpr l)
| has_index_r l r : has (AnExpr (CIndex l r)) (AnExpr r)
| has_elem es e : In e es -> has (AnExpr (CArrLit es)) (AnExpr e)
| has_tern_c c a b : has (AnExpr (CTern c a b)) (AnExpr c)
| has_tern_a c a b : has (AnExpr (CTern c a b)) (AnExpr a)
| has_tern_b c a b : has (AnExpr (CTern c a b)) (AnExpr b)
| has_clos ps ret body k : In k body -> has (AnExpr (CClos ps ret body)) (AStmt k)
| has_clos_expr ps ret e : has (AnExpr (CClosExpr ps ret e)) (AnExpr e)
| has_expr e : has (AStmt (KExpr e)) (AnExpr e)
| has_das x e : has (AStmt (KDas x e)) (AnExpr e)
| has_as_l l r : has (AStmt (KAs l r)) (AnExpr l)
| has_as_r l r : has (AStmt (KAs l r)) (AnExpr r)
| has_while_c c b : has (AStmt (KWhile c b)) (AnExpr c)
| has_while_b c b k : In k b -> has (AStmt (KWhile c b)) (AStmt k)
| has_for_in_e x e b : has (AStmt (KForIn x e b)) (AnExpr e)
| has_for_in_b x e b k : In k b -> has (AStmt (KForIn x e b)) (AStmt k)
| has_range_l x l r b : has (AStmt (KForRange x l r b)) (AnExpr l)
| has_range_r x l r b : has (AStmt (KForRange x l r b)) (AnExpr r)
| has_range_b x l r b k : In k b -> has (AStmt (KForRange x l r b)) (AStmt k)
| has_if_c c b r : has (AStmt (KIf c b r)) (AnExpr c)
| has_if_b c b r k : In k b -> has (AStmt (KIf c b r)) (AStmt k)
| has_if_r c b k : has (AStmt (KIf c b (Some k))) (AStmt k)
| has_else b k : In k b -> has (AStmt (KElse b)) (AStmt k)
| has_return e : has (AStmt (KReturn (Some e))) (AnExpr e)
| has_match_e e n cases : has (AStmt (KMatch e n cases)) (AnExpr e)
| has_match_b e n cases t xs b k : In (t, xs, b) cases -> In k b -> has (AStmt (KMatch e n cases)) (AStmt k).
(** ... and at any depth. *)
Inductive within : part -> part -> Prop :=
| within_same x : within x x
| within_below x y z : has x y -> within y z -> within x z.
(** The parts of a function's body. *)
Definition in_body (b : cbody) (y : part) : Prop :=
  match b with
  | CBlock ks => exists k, In k ks /\ within (AStmt k) y
  | CBody e => within (AnExpr e) y
  | _ => False
  end.

Section Parts.
Variable P : program.
Definition right (x : part) : Prop :=
  match x with AnExpr e => exists C t, typed P C e t | AStmt k => exists C ret C1, ok P C ret k C1 end.
Lemma right_args C es ts e : Forall2 (typed P C) es ts -> In e es -> right (AnExpr e).
Proof. intros H. induction H as [|a t es ts Ha _ IH]; intros Hi; [destruct Hi|]. destruct Hi as [<-|Hi]; [exists C, t; exact Ha|auto]. Qed.
Lemma right_block ks : forall C ret k, oks P C ret ks -> In k ks -> right (AStmt k).
Proof.
  induction ks as [|a ks IH]; intros C ret k H Hi; [destruct Hi|]. inversion H; subst. destruct Hi as [<-|Hi]; [do 3 eexists; eassumption|eapply IH; eassumption].
Qed.
Lemma right_has x y : right x -> has x y -> right y.
Proof.
  intros R H. destruct H; cbn [right] in R; repeat match goal with E : exists _, _ |- _ => destruct E as [? E] end;
    inversion R; subst; clear R;
    try solve [eapply right_args; eassumption | eapply right_block; eassumption | do 2 eexists; eassumption | do 3 eexists; eassumption].
  - exists []. eexists. eapply (typed_fun P [] _ _ 0 []). eassumption.
  - match goal with F : Forall _ _ |- _ => rewrite Forall_forall in F; specialize (F _ H); inversion F; subst end. eapply right_block; eassumption.
Qed.
Lemma right_within x y : right x -> within x y -> right y.
Proof. intros R H. induction H as [|x y z H1 _ IH]; [exact R|]. apply IH. eapply right_has; eassumption. Qed.

Lemma assigned_places cs f b l r : well_typed P cs -> nth_error cs f = Some b -> in_body b (AStmt (KAs l r)) -> place l.
Proof.
  intros [Hn H] Hb Hin.
  destruct (nth_error (p_funs P) f) as [d|] eqn:Ed; [|apply nth_error_None in Ed; assert (f < length cs) by (apply nth_error_Some; congruence); rewrite Hn in *; exfalso; now apply (Nat.lt_irrefl f), (Nat.lt_le_trans _ (length (p_funs P)))].
  assert (R : right (AStmt (KAs l r))).
  { destruct (H f d b Ed Hb) as [Hf _]. destruct b as [ks|e| | |]; cbn [fun_ok in_body body_ok] in Hf, Hin; try contradiction.
    - destruct Hf as (_ & Hk & _). destruct Hin as (k & Hk1 & Hw). eapply right_within; [eapply right_block; eassumption|exact Hw].
    - destruct Hf as (_ & t & Ht & _). eapply right_within; [|exact Hin]. exists (f_params d), t. exact Ht. }
  destruct R as (C & ret & C1 & R). inversion R; subst. assumption.
Qed.
End Parts.
