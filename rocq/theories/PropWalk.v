(** Walks over the tree: theorems for property C56. *)
From Coq Require Import ZArith List Bool Arith Lia.
From Verif Require Import LexModel ParseModel LitModel WalkModel WalkSpec WalkProofs WalkParse WalkFold.
Import ListNotations.
Open Scope nat_scope.

(* --------------------------------------------------------------------------------- C56 *)

Lemma read_shaped : forall attr_name roots, read attr_name roots -> Forall shaped roots.
Proof. intros attr_name roots R; induction R; [constructor|]. eapply parse_shaped; eauto. Qed.
Lemma above_parts : forall p q, In q (above p) <-> exists a, a <> [] /\ p = a ++ q.
Proof.
  induction p as [|s p IH]; intros q; cbn.
  - split; [intros []|intros ([|x a] & N & E); [destruct (N eq_refl)|discriminate]].
  - rewrite IH. split.
    + intros [<-|(a & N & ->)]; [exists [s]|exists (s :: a)]; split; auto; discriminate.
    + intros ([|x a] & N & E); [destruct (N eq_refl)|]. injection E as -> ->. destruct a as [|y a]; auto. right. exists (y :: a). split; auto. discriminate.
Qed.

Lemma walks_all : forall roots pre go, Forall shaped roots ->
  exists l, walk_root pre go roots = Some l /\ NoDup (places l) /\
    forall p, In p (places l) <-> there roots p /\ (pre = false \/ forall q, In q (above p) -> go q = true).
Proof.
  intros roots pre go R. destruct (root_done pre go roots R) as (l & E & D).
  exists l. split; [exact E|]. split; [exact (d_once _ _ _ _ _ D)|]. intros p. rewrite (d_places _ _ _ _ _ D). unfold open. split.
  - intros (a & -> & T & O). rewrite app_nil_r. split; auto. destruct O as [O|O]; auto. right. intros q I. apply above_parts in I as (b & N & ->).
    rewrite <- (app_nil_r q). apply (O b q); auto.
  - intros (T & O). exists p. rewrite app_nil_r. split; auto. split; auto. destruct O as [O|O]; auto. right. intros a b -> N. rewrite app_nil_r. apply O. apply above_parts. eauto.
Qed.
(** A walk over any tree that the parser makes does not panic and calls the function once for
    each node: for all of them after their children, and before their children for those with
    no node above them for which the function has given false. *)
Theorem C56_walks_reach_everything : forall attr_name roots pre go, read attr_name roots ->
  exists l, walk_root pre go roots = Some l /\ NoDup (places l) /\
    forall p, In p (places l) <-> there roots p /\ (pre = false \/ forall q, In q (above p) -> go q = true).
Proof. intros attr_name roots pre go R. exact (walks_all roots pre go (read_shaped _ _ R)). Qed.
Print Assumptions C56_walks_reach_everything.

(** What is above a node comes before it, or after it. *)
Theorem C56_walks_are_in_order : forall attr_name roots pre go l p q, read attr_name roots -> walk_root pre go roots = Some l ->
  In p (places l) -> In q (above p) -> if pre then earlier (places l) q p else earlier (places l) p q.
Proof.
  intros attr_name roots pre go l p q R E I A. destruct (root_done pre go roots (read_shaped _ _ R)) as (l' & E' & D). assert (l' = l) as -> by congruence.
  assert (J : In q (places l)).
  { rewrite (d_places _ _ _ _ _ D) in *. destruct I as (a & -> & T & O). rewrite app_nil_r in *. exists q. rewrite app_nil_r. split; auto.
    apply above_parts in A as (b & N & ->). split.
    - clear -T N. revert T. induction b as [|s b IH]; [destruct (N eq_refl)|]. intros T.
      assert (U : there roots (b ++ q)).
      { inversion T as [|i n p m H R E]. cbn in E. destruct p as [|x p]; cbn in E; injection E as _ E; rewrite <- E; [constructor|].
        inversion R; subst. econstructor; eauto. }
      destruct b as [|y b]; [exact U|]. apply IH; auto. discriminate.
    - destruct O as [O|O]; [left; auto|right]. intros a c E2 N2. apply (O (b ++ a) c); [rewrite E2, app_assoc; auto|]. destruct b; [destruct (N eq_refl)|discriminate]. }
  apply above_parts in A as (a & N & ->). 
  destruct (exists_last N) as (b & s & ->). rewrite <- app_assoc in *. cbn [app] in *. exact (d_order _ _ _ _ _ D q s b J I).
Qed.
Print Assumptions C56_walks_are_in_order.

(** The calls with nil are where a node is left. *)
Theorem C56_walks_leave_nodes : forall attr_name roots go l, read attr_name roots -> walk_root true go roots = Some l -> nested go [] l.
Proof. intros attr_name roots go l R E. exact (root_nested true go eq_refl roots l (read_shaped _ _ R) E). Qed.
Print Assumptions C56_walks_leave_nodes.

(** The pass over literals does not panic; after it each integer literal with a minus before
    it is one literal and all else is as it was; exactly the literals then in the tree that are
    too big are reported, each once. *)
Theorem C56_literals_are_folded : forall attr_name roots, read attr_name roots -> exists roots' es,
  fold_walk_all roots = Some (roots', es) /\ Forall2 folded roots roots' /\ reported (found roots') es.
Proof.
  intros attr_name roots R. destruct (fold_roots roots (read_shaped _ _ R)) as (roots' & es & E & F & _ & P). eauto.
Qed.
Print Assumptions C56_literals_are_folded.

(** So do walks over the tree after that pass. *)
Theorem C56_walks_after_folding : forall attr_name roots roots' es pre go, read attr_name roots -> fold_walk_all roots = Some (roots', es) ->
  exists l, walk_root pre go roots' = Some l /\ NoDup (places l) /\
    forall p, In p (places l) <-> there roots' p /\ (pre = false \/ forall q, In q (above p) -> go q = true).
Proof.
  intros attr_name roots roots' es pre go R E. destruct (fold_roots roots (read_shaped _ _ R)) as (r' & es' & E' & _ & S & _). assert (r' = roots') as -> by congruence.
  exact (walks_all roots' pre go S).
Qed.
Print Assumptions C56_walks_after_folding.

(** fn f() = g(-9223372036854775808, 9223372036854775808) *)
Definition tok (k : kind) (v : list Z) : token := Token k v 0 0.
Definition no_name (_ : list Z) : option bool := None.
Definition big : list Z := [57; 50; 50; 51; 51; 55; 50; 48; 51; 54; 56; 53; 52; 55; 55; 53; 56; 48; 56]%Z.
Definition case_tokens : list token := [tok KFn []; tok KIdentifier [102%Z]; tok KLParen []; tok KRParen []; tok KAs []; tok KIdentifier [103%Z]; tok KLParen [];
  tok KMin []; tok KInteger big; tok KComma []; tok KInteger big; tok KRParen []; tok KEOF []].
Example C56_case : exists n es, parse no_name 100 case_tokens [] = Some ([n], es) /\ read no_name [n] /\
  (exists l, walk_root false (fun _ => true) [n] = Some l /\ List.length (places l) = 7) /\
  (exists l, walk_root true (fun p => Nat.ltb (List.length p) 2) [n] = Some l /\ List.length (places l) = 3) /\
  exists n', fold_walk n = Some (n', [big]).
Proof.
  eexists _, _. split; [vm_compute; reflexivity|]. split.
  - apply (read_file no_name [] 100 case_tokens _ []); [constructor|vm_compute; reflexivity].
  - split; [|split]; eexists; [split; vm_compute; reflexivity..|vm_compute; reflexivity].
Qed.
