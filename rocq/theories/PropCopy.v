(** Copies of trees: theorems for property C62. *)
From Coq Require Import List Arith Bool Lia.
From Verif Require Import CopyModel CopySpec CopyProofs.
Import ListNotations.

(* --------------------------------------------------------------------------------- C62 *)

(** copyNode of a tree: it ends, nothing that was there is changed, and the copy is the same
    tree, without nil in its lists and without attributes.  Its cells are exactly the new
    ones, each met once, even where cells of the original are met more than once. *)
Theorem C62_trees_are_copied : forall n h a t, tree_at n h a = Some t ->
  exists h', copy_node n h a = Some (length h, h') /\
    length h <= length h' /\ (forall b, b < length h -> nth_error h' b = nth_error h b) /\
    tree_at n h' (length h) = Some (tidy t) /\
    cells_of n h' (length h) = seq (length h) (length h' - length h).
Proof. intros n h a t H. destruct (copied n h a t H) as (h' & E & [G1 G2] & T & S). exists h'. auto. Qed.
Print Assumptions C62_trees_are_copied.

(** Whatever is changed in the copy later, in any cells of it, the original stays the same
    tree; whatever is changed in what was there before, the copy stays the same tree. *)
Theorem C62_copies_are_apart : forall n h a t x h', tree_at n h a = Some t -> copy_node n h a = Some (x, h') ->
  (forall later, (forall b, ~ In b (cells_of n h' x) -> nth_error later b = nth_error h' b) -> tree_at n later a = Some t) /\
  (forall later, (forall b, length h <= b -> nth_error later b = nth_error h' b) -> tree_at n later x = Some (tidy t)).
Proof.
  intros n h a t x h' H C. destruct (copied n h a t H) as (h1 & E & G & T & S). rewrite C in E. injection E as -> ->. split; intros later L.
  - destruct (local n h later a) as [-> _]; [|exact H]. intros b Hb. pose proof (within n h a t H b Hb) as Lb. rewrite L; [now apply G|]. rewrite S, in_seq. lia.
  - destruct (local n h1 later (length h)) as [-> _]; [|exact T]. intros b Hb. apply L. rewrite S in Hb. apply in_seq in Hb. lia.
Qed.
Print Assumptions C62_copies_are_apart.

(** copyNode ends exactly for trees: when a way down is endless it never ends. *)
Theorem C62_only_trees_are_copied : forall h a, no_dangling h -> a < length h ->
  ((exists n, copy_node n h a <> None) <-> exists t, holds h a t).
Proof.
  intros h a D La. split.
  - intros (n & H). destruct (only_trees n h h a D (grows_refl h) La H) as (t & T). exists t, n. exact T.
  - intros (t & n & T). exists n. destruct (copied n h a t T) as (h' & -> & _). discriminate.
Qed.
Print Assumptions C62_only_trees_are_copied.

(** What has neither nil in lists nor attributes is copied as it is. *)
Theorem C62_tidy_trees_are_copied_exactly : forall t, tidied t -> tidy t = t.
Proof.
  fix IH 2. intros t T. destruct T as [d l r ss ps Hd Hl Hr Hs]. rewrite tidy_eq.
  assert (X : forall l, (forall o, In o l -> exists t, o = Some t /\ tidied t) -> (forall o, In o l -> exists t, o = Some t /\ tidy t = t) -> tidy_list l = l).
  { clear. induction l as [|o l IHl]; intros H1 H2; [reflexivity|]. destruct (H2 o (or_introl eq_refl)) as (t & -> & E). cbn. rewrite E, IHl; [reflexivity| |]; intros o' Ho; [apply H1|apply H2]; now right. }
  assert (Y : forall o, In o ss \/ In o ps -> exists t, o = Some t /\ tidy t = t).
  { intros o Ho. destruct (Hs o Ho) as (t & E & Ht). exists t. split; [exact E|exact (IH t Ht)]. }
  rewrite (X ss), (X ps) by eauto. destruct d as [at_ ? ? ? ? ?]. cbn in Hd. subst at_. unfold plain. cbn. f_equal.
  - destruct l as [t|]; [|reflexivity]. cbn. f_equal. exact (IH t (Hl t eq_refl)).
  - destruct r as [t|]; [|reflexivity]. cbn. f_equal. exact (IH t (Hr t eq_refl)).
Qed.
Print Assumptions C62_tidy_trees_are_copied_exactly.

(** Attributes are lost: the copy of a node that has some is a different node. *)
Theorem C62_copies_are_equal_refuted : forall n h a t, tree_at n h a = Some t ->
  (match t with Tree d _ _ _ _ => d_attrs d <> 0 end) ->
  exists h', copy_node n h a = Some (length h, h') /\ tree_at n h' (length h) <> Some t.
Proof.
  intros n h a t H A. destruct (copied n h a t H) as (h' & E & _ & T & _). exists h'. split; [exact E|]. rewrite T. destruct t as [d l r ss ps]. rewrite tidy_eq. intros Q. injection Q as Q _ _ _ _. apply A. rewrite <- Q. reflexivity.
Qed.
Print Assumptions C62_copies_are_equal_refuted.

(** A function (0) with one parameter (1), a nil statement and two statements that share a
    variable (2), as those made for loops do (semantic.go:485-498); 5 is a node that is its
    own child. *)
Definition node_of (op : nat) : data := Data 0 (10 + op) op (Some op) None None.
Definition sample_heap : heap :=
  [ Cell (Data 7 1 0 None (Some 4) None) None None [Some 3; None; Some 4] [Some 1]; Cell (node_of 1) None None [] []; Cell (node_of 2) None None [] [];
    Cell (node_of 3) (Some 2) (Some 1) [] []; Cell (node_of 4) (Some 2) (Some 2) [] []; Cell (node_of 5) (Some 5) None [] [] ].
Definition leaf (op : nat) : tree := Tree (node_of op) None None [] [].
Definition sample_tree (attrs : nat) (gap : list (option tree)) : tree :=
  Tree (Data attrs 1 0 None (Some 4) None) None None
    ([Some (Tree (node_of 3) (Some (leaf 2)) (Some (leaf 1)) [] [])] ++ gap ++ [Some (Tree (node_of 4) (Some (leaf 2)) (Some (leaf 2)) [] [])]) [Some (leaf 1)].
Example C62_example :
  tree_at 3 sample_heap 0 = Some (sample_tree 7 [None]) /\ cells_of 3 sample_heap 0 = [0; 1; 3; 2; 1; 4; 2; 2] /\
  exists h', copy_node 3 sample_heap 0 = Some (6, h') /\ tree_at 3 h' 6 = Some (sample_tree 0 []) /\ cells_of 3 h' 6 = [6; 7; 8; 9; 10; 11; 12; 13].
Proof. split; [reflexivity|]. split; [reflexivity|]. eexists. split; [reflexivity|]. split; reflexivity. Qed.
Example C62_endless_example : forall n, copy_node n sample_heap 5 = None.
Proof.
  intros n. destruct (copy_node n sample_heap 5) eqn:E; [|reflexivity]. exfalso.
  assert (D : no_dangling sample_heap).
  { intros c b Hc Hb. cbn in Hc. repeat (destruct Hc as [<-|Hc]; [cbn in Hb |- *; intuition (try discriminate; match goal with H : Some _ = Some _ |- _ => injection H as <-; lia end)|]). destruct Hc. }
  assert (N : exists n, copy_node n sample_heap 5 <> None) by (exists n; rewrite E; discriminate).
  apply (C62_only_trees_are_copied sample_heap 5 D) in N; [|cbn; lia]. destruct N as (t & k & T).
  clear -T. revert t T. induction k as [|k IH]; intros t T; [discriminate|]. rewrite tree_eq in T. cbn [sample_heap nth_error c_left subt] in T. change [_; _; _; _; _; _] with sample_heap in T.
  destruct (tree_at k sample_heap 5) as [u|] eqn:E; [exact (IH u eq_refl)|discriminate].
Qed.
Example C62_exact_example : tidied (sample_tree 0 []) /\ ~ tidied (sample_tree 7 []).
Proof.
  assert (Lf : forall k, tidied (leaf k)) by (intros k; constructor; [reflexivity|discriminate|discriminate|intros o [[]|[]]]).
  split; [|intros H; inversion H; discriminate].
  constructor; [reflexivity|discriminate|discriminate|]. cbn. intros o [[<-|[<-|[]]]|[<-|[]]]; eexists; (split; [reflexivity|]); [| |apply Lf];
    (constructor; [reflexivity|intros t E; injection E as <-; apply Lf|intros t E; injection E as <-; apply Lf|intros o [[]|[]]]).
Qed.
