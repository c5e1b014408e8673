(** The parser does not look at positions: lemmas for C58. *)
From Coq Require Import ZArith List Bool Arith Lia.
From Verif Require Import LexModel ParseModel ParseSpec ParseTotal.
Import ListNotations.
Local Open Scope nat_scope.

(** Everything without positions. *)
Definition bare_errs (l : list (token * expected)) : list (token * expected) := map (fun e => (strip (fst e), snd e)) l.
Definition bare_state (s : state) : state := State (map strip (rest s)) (bare_errs (errs s)) (discard s).
Definition bare_result {A} (f : A -> A) (r : result A) : result A :=
  match r with Ok a s => Ok (f a) (bare_state s) | Stop s => Stop (bare_state s) | Crash => Crash | NoFuel => NoFuel end.
(** [p] and [q] do the same, [q] without positions. *)
Definition blind {A} (f : A -> A) (p q : parser A) : Prop := forall s, q (bare_state s) = bare_result f (p s).

Lemma strip_kind t : tk_kind (strip t) = tk_kind t.
Proof. reflexivity. Qed.
Lemma blind_ret {A} (f : A -> A) a b : b = f a -> blind f (ret a) (ret b).
Proof. intros -> s. reflexivity. Qed.
Lemma blind_bind {A B} (f : A -> A) (g : B -> B) p p' q q' : blind f p p' -> (forall a, blind g (q a) (q' (f a))) -> blind g (bind p q) (bind p' q').
Proof. intros P Q s. unfold bind. rewrite P. destruct (p s); cbn; auto. apply Q. Qed.
Lemma blind_fuel {A} (f : A -> A) : blind f no_fuel no_fuel.
Proof. intros s. reflexivity. Qed.
Lemma blind_crash {A} (f : A -> A) : blind f (fun _ => Crash) (fun _ => Crash).
Proof. intros s. reflexivity. Qed.
Lemma blind_kind : blind (fun k => k) cur_kind cur_kind.
Proof. intros [[|t r] es d]; reflexivity. Qed.
Lemma blind_is ks : blind (fun b => b) (is ks) (is ks).
Proof. eapply blind_bind; [apply blind_kind|]. intros k. apply blind_ret. reflexivity. Qed.
Lemma blind_next : blind strip next next.
Proof. intros [[|t [|x r]] es d]; reflexivity. Qed.
Lemma blind_error x : blind (fun a => a) (syntax_error x) (syntax_error x).
Proof. intros [[|t r] es []]; reflexivity. Qed.
Lemma blind_need k : blind strip (need k) (need k).
Proof.
  intros [r es d]. unfold need. cbn [rest errs discard bare_state]. revert es d. induction r as [|t r IH]; intros es d; [reflexivity|]. cbn [map skip_to]. rewrite strip_kind.
  destruct (kind_eqb (tk_kind t) k); [destruct r; reflexivity|]. destruct r as [|x r]; [destruct d; reflexivity|]. 
  specialize (IH (if d then es else (t, XKind k) :: es) true). rewrite <- IH. destruct d; reflexivity.
Qed.
Lemma blind_matches k : blind (fun b => b) (matches k) (matches k).
Proof.
  eapply blind_bind; [apply blind_is|]. intros [|]; [|apply blind_ret; reflexivity]. eapply blind_bind; [apply blind_next|]. intros a s. reflexivity.
Qed.
Lemma blind_comma {A} (f : A -> A) p p' n : blind f p p' -> blind (map f) (comma_sep n p) (comma_sep n p').
Proof.
  intros P. induction n as [|n IH]; cbn; [apply blind_fuel|]. eapply blind_bind; [exact P|]. intros a. eapply blind_bind; [apply blind_matches|]. intros [|]; [|apply blind_ret; reflexivity].
  eapply blind_bind; [apply IH|]. intros l. apply blind_ret. reflexivity.
Qed.
Lemma blind_until {A} (f : A -> A) p p' n k : blind f p p' -> blind (map f) (list_until n k p) (list_until n k p').
Proof.
  intros P. eapply blind_bind; [apply blind_is|]. intros b. eapply blind_bind; [destruct b; [apply (blind_ret (map f)); reflexivity|apply blind_comma, P]|].
  intros l. eapply blind_bind; [apply blind_need|]. intros t. apply blind_ret. reflexivity.
Qed.
Lemma blind_many {A} (f : A -> A) p p' n ks : blind f p p' -> blind (map f) (many n ks p) (many n ks p').
Proof.
  intros P. induction n as [|n IH]; cbn; [apply blind_fuel|]. eapply blind_bind; [apply blind_is|]. intros [|]; [apply blind_ret; reflexivity|].
  eapply blind_bind; [exact P|]. intros a. eapply blind_bind; [apply IH|]. intros l. apply blind_ret. reflexivity.
Qed.
Definition strip_list (x : list node * token) : list node * token := (map erase (fst x), strip (snd x)).
Lemma blind_type_list n p : blind erase p p -> blind strip_list (type_list n p) (type_list n p).
Proof.
  intros P. eapply blind_bind; [apply blind_need|]. intros t. eapply blind_bind; [apply blind_until, P|]. intros l. apply blind_ret. reflexivity.
Qed.
Ltac bl :=
  lazymatch goal with
  | |- blind _ (bind _ _) (bind _ _) => eapply blind_bind; [bl|intros ?; bl]
  | |- blind _ (ret _) (ret _) => first [apply (blind_ret (option_map erase)); reflexivity | apply (blind_ret (map erase)); reflexivity | apply (blind_ret (map strip)); reflexivity | apply (blind_ret erase); reflexivity | apply (blind_ret strip); reflexivity | apply blind_ret; reflexivity]
  | |- blind _ no_fuel no_fuel => apply blind_fuel
  | |- blind _ cur_kind _ => apply blind_kind
  | |- blind _ (is _) _ => apply blind_is
  | |- blind _ next _ => apply blind_next
  | |- blind _ (syntax_error _) _ => apply blind_error
  | |- blind _ (need _) _ => apply blind_need
  | |- blind _ (matches _) _ => apply blind_matches
  | |- blind _ (comma_sep _ _) _ => apply blind_comma; bl
  | |- blind _ (list_until _ _ _) _ => apply blind_until; bl
  | |- blind _ (many _ _ _) _ => apply blind_many; bl
  | |- blind _ (type_list _ _) _ => apply blind_type_list; bl
  | |- blind _ (if ?b then _ else _) _ => destruct b; bl
  | |- blind _ (match ?k with _ => _ end) _ => destruct k; bl
  | |- blind _ (fun _ => Crash) _ => apply blind_crash
  | |- _ => eauto
  end.
Lemma blind_type n : blind erase (parse_type n) (parse_type n).
Proof. induction n as [|n IH]; cbn [parse_type]; [apply blind_fuel|]. bl. Qed.
Lemma blind_parameter n : blind erase (parse_parameter n) (parse_parameter n).
Proof. pose proof (blind_type n). unfold parse_parameter. bl. Qed.
Lemma blind_parameters n : blind (map erase) (parse_parameters n) (parse_parameters n).
Proof. pose proof (blind_parameter n). unfold parse_parameters, paren_list. bl. Qed.
Lemma blind_identifiers n : blind (map erase) (parse_identifiers n) (parse_identifiers n).
Proof. unfold parse_identifiers, paren_list. bl. Qed.
Lemma blind_type_params n : blind (map erase) (type_params n) (type_params n).
Proof. pose proof (blind_type n). unfold type_params. bl. Qed.

Section Names.
Variable attr_name : list Z -> option bool.
Lemma blind_call n p l t ts : blind erase p p -> blind erase (parse_call n p l t ts) (parse_call n p (erase l) (strip t) (map erase ts)).
Proof. intros P. unfold parse_call. bl. Qed.
Lemma blind_all n :
  (forall k, blind erase (parse_expr n k) (parse_expr n k)) /\
  (forall k l, blind erase (infix_loop n k l) (infix_loop n k (erase l))) /\
  (forall l t, blind erase (parse_infix n l t) (parse_infix n (erase l) (strip t))) /\
  (forall a t b, blind erase (parse_fn n a t b) (parse_fn n a (strip t) b)) /\
  blind (map erase) (parse_block n) (parse_block n) /\
  blind erase (parse_statement n) (parse_statement n) /\
  blind (option_map erase) (parse_else n) (parse_else n) /\
  blind erase (parse_case n) (parse_case n).
Proof.
  induction n as [|n (I1 & I2 & I3 & I4 & I5 & I6 & I7 & I8)]; [repeat split; intros; apply blind_fuel|].
  pose proof (blind_type n) as J1. pose proof (blind_parameters n) as J2. pose proof (blind_identifiers n) as J3. pose proof (blind_call n) as J4.
  split; [|split; [|split; [|split; [|split; [|split; [|split]]]]]].
  - intros k. cbn [parse_expr]. eapply blind_bind; [apply blind_next|]. intros t. rewrite strip_kind. destruct (tk_kind t); bl.
  - intros k l. cbn [infix_loop]. eapply blind_bind; [apply blind_kind|]. intros k1. destruct (negb _); bl.
  - intros l t. cbn [parse_infix]. rewrite strip_kind. destruct (tk_kind t); cbn [is_binary]; bl; try (apply (J4 _ _ _ []); auto).
  - intros a t b. cbn [parse_fn]. eapply blind_bind with (f := strip); [destruct b; bl|]. intros t1. bl.
  - cbn [parse_block]. bl.
  - cbn [parse_statement]. bl.
  - cbn [parse_else]. bl.
  - cbn [parse_case]. bl.
Qed.

Lemma blind_bind_if {A B} (P : A -> Prop) (f : A -> A) (g : B -> B) p p' q q' : blind f p p' -> (forall s a s1, p s = Ok a s1 -> P a) -> (forall a, P a -> blind g (q a) (q' (f a))) -> blind g (bind p q) (bind p' q').
Proof. intros H K Q s. unfold bind. rewrite H. destruct (p s) eqn:E; cbn; auto. apply Q. eapply K; eauto. Qed.
Lemma need_gives k s t s1 : need k s = Ok t s1 -> tk_kind t = k.
Proof.
  unfold need. destruct s as [r es d]. cbn. revert es d. induction r as [|x r IH]; intros es d; cbn; [discriminate|]. destruct (kind_eqb (tk_kind x) k) eqn:E.
  - destruct r; [discriminate|]. intros H. injection H as <- <-. apply kind_eqb_eq. exact E.
  - destruct r; [discriminate|]. apply IH.
Qed.
Lemma comma_gives {A} (P : A -> Prop) p : (forall s a s1, p s = Ok a s1 -> P a) -> forall n s l s1, comma_sep n p s = Ok l s1 -> Forall P l.
Proof.
  intros H. induction n as [|n IH]; intros s l s1 E; cbn in E; [discriminate|]. unfold bind in E. destruct (p s) as [a s2| | |] eqn:E1; try discriminate. apply H in E1.
  destruct (matches KComma s2) as [[|] s3| | |]; try discriminate.
  - destruct (comma_sep n p s3) as [l' s4| | |] eqn:E2; try discriminate. injection E as <- <-. constructor; eauto.
  - injection E as <- <-. auto.
Qed.
Lemma attrs_blind l : Forall (fun t => tk_kind t = KIdentifier) l -> forall a, fold_left (fun a t => attr_add attr_name a (tk_val t)) (map strip l) a = fold_left (fun a t => attr_add attr_name a (tk_val t)) l a.
Proof.
  induction 1 as [|t l K _ IH]; intros a; cbn [map fold_left]; auto. 
  replace (tk_val (strip t)) with (tk_val t) by (unfold strip, look; rewrite K; reflexivity). apply IH.
Qed.
Lemma blind_attributes n : blind (fun a => a) (parse_attributes attr_name n) (parse_attributes attr_name n).
Proof.
  unfold parse_attributes. eapply blind_bind; [apply blind_is|]. intros [|]; [|apply blind_ret; reflexivity].
  eapply blind_bind; [apply blind_need|]. intros t1. eapply blind_bind; [apply blind_need|]. intros t2. eapply blind_bind; [apply blind_is|]. intros b.
  eapply (blind_bind_if (Forall (fun t => tk_kind t = KIdentifier)) (map strip)).
  - destruct b; bl.
  - intros s l s1 E. destruct b; [injection E as <- <-; constructor|]. revert E. apply comma_gives. apply need_gives.
  - intros l K. eapply blind_bind; [apply blind_need|]. intros t3. apply blind_ret. apply attrs_blind, K.
Qed.
Lemma blind_decl n : blind (option_map erase) (parse_decl attr_name n) (parse_decl attr_name n).
Proof.
  destruct (blind_all n) as (_ & _ & _ & F & _). pose proof (blind_attributes n). pose proof (blind_type_params n). pose proof (blind_parameter n). pose proof (blind_parameters n).
  unfold parse_decl, parse_struct, parse_enum, parse_cons. eapply blind_bind; [apply blind_attributes|]. intros a. eapply blind_bind; [apply blind_kind|]. intros k. cbv beta.
  destruct k; bl.
Qed.
Lemma parse_loop_blind fuel n : forall root s, parse_loop attr_name n fuel (map erase root) (bare_state s) = option_map (fun r => (map erase (fst r), bare_errs (snd r))) (parse_loop attr_name n fuel root s).
Proof.
  induction n as [|n IH]; intros root s; cbn [parse_loop]; [reflexivity|]. rewrite blind_is. destruct (is [KEOF] s) as [[|] s1| | |]; cbn [bare_result option_map]; auto.
  - rewrite blind_need. destruct (need KEOF s1); cbn [bare_result option_map fst snd bare_state errs]; auto; unfold bare_errs; rewrite map_rev; reflexivity.
  - rewrite blind_decl. destruct (parse_decl attr_name fuel s1) as [[x|] s2|s2| |]; cbn [bare_result option_map]; auto.
    + rewrite <- IH, map_app. reflexivity.
    + cbn. unfold bare_errs; rewrite map_rev; reflexivity.
Qed.
(** Without positions the same trees and errors. *)
Theorem parse_blind fuel ts root : parse attr_name fuel (map strip ts) (map erase root) = option_map (fun r => (map erase (fst r), bare_errs (snd r))) (parse attr_name fuel ts root).
Proof. unfold parse. rewrite <- parse_loop_blind. reflexivity. Qed.
Theorem parse_looks fuel ts ts' root root' : map look ts = map look ts' -> map erase root = map erase root' ->
  option_map (fun r => (map erase (fst r), bare_errs (snd r))) (parse attr_name fuel ts root) = option_map (fun r => (map erase (fst r), bare_errs (snd r))) (parse attr_name fuel ts' root').
Proof.
  intros L R. rewrite <- !parse_blind. rewrite R. f_equal. unfold strip. rewrite <- !(map_map look bare). now rewrite L.
Qed.

(* ----------------------------------------------------------------- what is there stays *)

Lemma loop_root fuel n : forall root s, parse_loop attr_name n fuel root s = option_map (fun r => (root ++ fst r, snd r)) (parse_loop attr_name n fuel [] s).
Proof.
  induction n as [|n IH]; intros root s; cbn [parse_loop]; [reflexivity|]. destruct (is [KEOF] s) as [[|] s1| | |]; auto.
  - destruct (need KEOF s1); cbn; auto; now rewrite app_nil_r.
  - destruct (parse_decl attr_name fuel s1) as [[x|] s2|s2| |]; cbn [option_map]; auto.
    + rewrite (IH (root ++ [x])), (IH ([] ++ [x])). destruct (parse_loop attr_name n fuel [] s2) as [[ns es]|]; cbn; auto. now rewrite <- app_assoc.
    + cbn. now rewrite app_nil_r.
Qed.
Theorem parse_root fuel ts root : parse attr_name fuel ts root = option_map (fun r => (root ++ fst r, snd r)) (parse attr_name fuel ts []).
Proof. apply loop_root. Qed.
End Names.
