(** Proofs about the list functions and the option/result combinators. *)
From Coq Require Import ZArith List Bool Lia.
From Verif Require Import Ints LibModel LibSpec LibProofs.
Import ListNotations.

Lemma to_list_loop_spec {T} (a : list T) : forall n l, (n <= length a)%nat ->
  to_list_loop n a l = Val (firstn n a ++ l).
Proof.
  induction n as [|n IH]; intros l H; [reflexivity|]. cbn [to_list_loop].
  destruct (nth_error a n) as [v|] eqn:E; [|apply nth_error_None in E; lia].
  rewrite IH by lia. destruct (split_at a n) as (pre & x & post & Ea & L); [lia|].
  rewrite Ea, nth_error_app2, L, Nat.sub_diag in E by lia. inversion E; subst v.
  subst a n. rewrite firstn_app, Nat.sub_diag, firstn_O, app_nil_r, firstn_all.
  rewrite firstn_app, firstn_all2 by lia.
  replace (S (length pre) - length pre)%nat with 1%nat by lia. cbn [firstn]. rewrite <- app_assoc. reflexivity.
Qed.

Lemma to_list_spec {T} (a : list T) : to_list a = Val a.
Proof. unfold to_list. rewrite to_list_loop_spec, firstn_all, app_nil_r by lia. reflexivity. Qed.

Lemma reverse_loop_spec {T} (l : list T) : forall new, reverse_loop l new = rev l ++ new.
Proof. induction l as [|x l IH]; intros new; simpl; auto. rewrite IH, <- app_assoc. reflexivity. Qed.

Lemma reverse_spec {T} (l : list T) : reverse l = rev l.
Proof. unfold reverse. rewrite reverse_loop_spec, app_nil_r. reflexivity. Qed.

Section St.
Context {S : Type}.

Lemma find_spec {T} (pred : T -> S -> bool * S) (l : list T) : forall s,
  (exists s', list_find l pred s = (None, s') /\ all_false pred l s s') \/
  (exists pre v post s1 s', l = pre ++ v :: post /\ all_false pred pre s s1 /\
     pred v s1 = (true, s') /\ list_find l pred s = (Some v, s')).
Proof.
  induction l as [|x l IH]; intros s.
  - left. exists s. split; auto. constructor.
  - simpl. destruct (pred x s) as [b s1] eqn:E. destruct b.
    + right. exists [], x, l, s, s1. repeat split; auto. constructor.
    + destruct (IH s1) as [(s' & E1 & H1)|(pre & v & post & s2 & s' & -> & H1 & H2 & E2)].
      * left. exists s'. split; auto. econstructor; eauto.
      * right. exists (x :: pre), v, post, s2, s'. repeat split; auto. econstructor; eauto.
Qed.

Lemma map_spec {T R} (f : T -> S -> R * S) (l : list T) : forall s,
  exists ys s', list_map l f s = (ys, s') /\ calls f l s ys s'.
Proof.
  induction l as [|x l IH]; intros s.
  - exists [], s. split; auto. constructor.
  - simpl. destruct (f x s) as [y s1] eqn:E. destruct (IH s1) as (ys & s2 & -> & H).
    exists (y :: ys), s2. split; auto. econstructor; eauto.
Qed.

Lemma reduce_spec {T} (f : T -> T -> S -> T * S) (l : list T) : forall a s,
  exists a' s', list_reduce l a f s = (a', s') /\ folds f l a s a' s'.
Proof.
  induction l as [|x l IH]; intros a s.
  - exists a, s. split; auto. constructor.
  - simpl. destruct (f a x s) as [a1 s1] eqn:E. destruct (IH a1 s1) as (a2 & s2 & -> & H).
    exists a2, s2. split; auto. econstructor; eauto.
Qed.

Lemma foreach_spec {T} (f : T -> S -> S) (l : list T) : forall s,
  list_foreach l f s = fold_left (fun s v => f v s) l s.
Proof. induction l as [|x l IH]; intros s; simpl; auto. Qed.

Lemma remove_found {T} (pred : T -> S -> bool * S) (l : list T) : forall new v s,
  exists bs s', calls pred l s bs s' /\ remove_loop l new (Some v) pred s = ((rev l ++ new, Some v), s').
Proof.
  induction l as [|x l IH]; intros new v s.
  - exists [], s. split; [constructor|reflexivity].
  - simpl. destruct (pred x s) as [b s1] eqn:E. rewrite andb_false_r.
    destruct (IH (x :: new) v s1) as (bs & s' & H & ->). exists (b :: bs), s'.
    split; [econstructor; eauto|]. rewrite <- app_assoc. reflexivity.
Qed.

Lemma remove_loop_spec {T} (pred : T -> S -> bool * S) (l : list T) : forall new s,
  (exists s', all_false pred l s s' /\ remove_loop l new None pred s = ((rev l ++ new, None), s')) \/
  (exists pre v post s1 s2 bs s', l = pre ++ v :: post /\ all_false pred pre s s1 /\
     pred v s1 = (true, s2) /\ calls pred post s2 bs s' /\
     remove_loop l new None pred s = ((rev (pre ++ post) ++ new, Some v), s')).
Proof.
  induction l as [|x l IH]; intros new s.
  - left. exists s. split; [constructor|reflexivity].
  - simpl. destruct (pred x s) as [b s1] eqn:E. destruct b; simpl.
    + right. destruct (remove_found pred l new x s1) as (bs & s' & H & Er).
      exists [], x, l, s, s1, bs, s'. repeat split; auto. constructor.
    + destruct (IH (x :: new) s1) as [(s' & H & ->)|(pre & v & post & s2 & s3 & bs & s' & -> & H1 & H2 & H3 & ->)].
      * left. exists s'. split; [econstructor; eauto|]. rewrite <- app_assoc. reflexivity.
      * right. exists (x :: pre), v, post, s2, s3, bs, s'. repeat split; auto; [econstructor; eauto|].
        simpl. rewrite <- app_assoc. reflexivity.
Qed.

Lemma remove_spec {T} (pred : T -> S -> bool * S) (l : list T) s :
  (exists s', all_false pred l s s' /\ list_remove l pred s = ((l, None), s')) \/
  (exists pre v post s1 s2 bs s', l = pre ++ v :: post /\ all_false pred pre s s1 /\
     pred v s1 = (true, s2) /\ calls pred post s2 bs s' /\
     list_remove l pred s = ((pre ++ post, Some v), s')).
Proof.
  unfold list_remove. destruct (remove_loop_spec pred l [] s) as
    [(s' & H & ->)|(pre & v & post & s2 & s3 & bs & s' & -> & H1 & H2 & H3 & ->)].
  - left. exists s'. split; auto. rewrite reverse_spec, app_nil_r, rev_involutive. reflexivity.
  - right. exists pre, v, post, s2, s3, bs, s'. repeat split; auto.
    rewrite reverse_spec, app_nil_r, rev_involutive. reflexivity.
Qed.
End St.
