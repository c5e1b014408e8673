(** Programs that follow the rules are accepted: theorems for property C54. *)
From Coq Require Import String List Bool PeanoNat ZArith Lia.
From Verif Require Import TypeModel TypeSpec CheckModel CheckSpec CheckSafe CheckSound PropCheck CheckRules CheckComplete.
Import ListNotations.
Local Open Scope string_scope.
Local Open Scope nat_scope.
Local Open Scope list_scope.

(* --------------------------------------------------------------------------------- C54 *)

(** A program whose functions follow the rules is accepted, and nothing in it is let pass
    without a look.  Missing: names with several overloads, and names of generic functions, as
    values and as arguments (for overloads see C14); function literals with type parameters;
    calls of [unsafe] and [deref]; comparison of other things than integers; functions called
    where they are written as an expression (see below). *)
Theorem C54_programs_by_the_rules_are_accepted_partial : forall P, follows_the_rules P ->
  exists n0, forall n, n0 <= n -> check_program n P = [].
Proof. exact follows_accepted. Qed.
Print Assumptions C54_programs_by_the_rules_are_accepted_partial.

(** Expressions are given the types that they have by the rules, whatever the scopes. *)
Theorem C54_types_are_those_of_the_rules_partial : forall P F e t, tidy P -> Forall (fun f => forall x u, entry x f (LVar u) -> mono u) F ->
  has P F e t -> exists n0 c t', same t t' /\ forall n, n0 <= n -> check_expr n (p_env P) F e = ([], Some (c, t')).
Proof. exact type_found. Qed.
Print Assumptions C54_types_are_those_of_the_rules_partial.

(** The rules themselves are right: what they allow does not go wrong. *)
Theorem C54_programs_by_the_rules_do_not_go_wrong_partial : forall P, declared_ok P -> follows_the_rules P ->
  exists n0, forall n, n0 <= n -> forall M, externs_ok M P (checked n P) ->
  forall k f d vs, nth_error (p_funs P) f = Some d -> Forall2 plain_val vs (map snd (f_params d)) ->
  match call M P (checked n P) k [] (VFun f) vs with
  | Wrong => False
  | Fine (v, _) => plain_type (f_ret d) -> plain_val v (f_ret d)
  | _ => True
  end.
Proof.
  intros P D H. destruct (follows_accepted P H) as [n0 E]. exists n0. intros n L M X k f d vs N V.
  exact (C51_accepted_programs_do_not_go_wrong_partial M P n D X (E n L) k f d vs N V).
Qed.
Print Assumptions C54_programs_by_the_rules_do_not_go_wrong_partial.

(** A function that is written as an expression cannot be called in place; one that is written
    as a block can.
    (fn(x: int) = x)(1) *)
Theorem C54_literal_called_refuted : exists P f u t a, tidy P /\ has P [[]] f (TFun 0 [] [u] t) /\ has P [[]] a u /\
  forall n, errors (fst (check_expr n (p_env P) [[]] (ECall f [] [a]))) <> [].
Proof.
  exists (Program (Genv [] [] [] []) []), (EFnExpr [] [("x", TInt)] TInt (EId "x")), TInt, TInt, (ELit (LInt 1)).
  split; [|split; [|split]].
  - split; cbn; intros; try (match goal with H : entry _ _ _ |- _ => inversion H end); contradiction.
  - eapply (has_fn_expr _ _ [("x", TInt)]).
    + repeat constructor. intros [].
    + repeat constructor.
    + constructor.
    + apply has_var, visible_here. cbn. constructor.
    + constructor.
  - constructor.
  - intros [|n]; cbn; discriminate.
Qed.
Print Assumptions C54_literal_called_refuted.

(** The program of C51 follows the rules. *)
Ltac ent := cbn; first [apply entry_here | apply entry_next; [discriminate|ent]].
Ltac not_in := cbn; intuition discriminate.
Ltac vis := first [apply visible_here; ent | apply visible_outer; [not_in|vis]].
Ltac hid := intros f I; cbn in I; repeat (destruct I as [<-|I]; [not_in|]); contradiction.
Ltac det := let p := fresh in let H := fresh in intros p H; cbn in H; right;
  repeat match goal with H : False |- _ => contradiction | H : _ \/ _ |- _ => destruct H as [<-|H] | H : mentions _ ?t |- _ => assert_fails (is_var t); inversion H; subst; clear H; cbn in * end;
  repeat (first [apply Exists_cons_hd; repeat (first [constructor|eapply m_enum; [left; reflexivity|]]); fail | apply Exists_cons_tl]).
Definition s0 (p : nat) : ty := match p with 1 => TString | _ => TInt end.
Ltac sames := repeat constructor.
Ltac root := match goal with |- calls _ _ (EId ?x) _ _ _ => eapply (calls_root _ _ x _ _ _ [] _ _ []) end;
  [hid|ent|unfold special; intuition discriminate|constructor|constructor|
   first [eapply instance_plain; sames | eapply (instance_generic _ _ _ _ _ _ s0); [discriminate|left; reflexivity|sames|det]]].
Lemma has_eq : forall P F e t u, has P F e t -> t = u -> has P F e u.
Proof. intros P F e t u H <-. exact H. Qed.
Ltac typ := eapply has_eq; [typ_of|cbn; reflexivity]
with typ_of := lazymatch goal with
  | |- has _ _ (ELit _) _ => constructor
  | |- has _ _ (EId _) _ => first [eapply has_var; vis | eapply has_fun; [hid|ent]]
  | |- has _ _ (EArith _ _ _) _ => apply has_arith; typ
  | |- has _ _ (ECall _ _ _) _ => eapply has_call; [typs|first [root | eapply calls_value; [typ|split; [eexists; vis|unfold special; intuition discriminate]|sames]]|cbn; lia]
  | |- has _ _ (EDot _ (EId "length")) _ => eapply has_length_arr; typ
  | |- has _ _ (EDot _ (EId _)) _ => eapply has_struct_field; [typ|ent|ent]
  | |- has _ _ (EDot _ (ECall _ _ _)) _ => eapply has_method; [typ|intros (? & ? & ? & ? & ? & E & _); discriminate E|typs|root|cbn; lia]
  | |- has _ _ (EArrLit _) _ => eapply has_arr; [typ|typs|sames]
  | |- has _ _ (EFn _ _ _ _) _ => eapply has_fn; [repeat constructor; not_in|sames|sames|stmts|right; repeat constructor]
  end
with typs := lazymatch goal with
  | |- have _ _ [] _ => constructor
  | |- have _ _ (_ :: _) _ => eapply have_cons; [typ|typs]
  end
with stmts := lazymatch goal with
  | |- block _ _ _ [] => constructor
  | |- block _ _ _ (_ :: _) => eapply block_cons; [stm|cbn; stmts]
  end
with stm := lazymatch goal with
  | |- fits _ _ _ (SDas _ _) _ => eapply fits_das; [typ|not_in]
  | |- fits _ _ _ (SAs (EId _) _) _ => eapply fits_as_var; [vis|typ|sames]
  | |- fits _ _ _ (SAs (EDot _ (EId _)) _) _ => eapply fits_as_field; [typ|typ|typ|sames]
  | |- fits _ _ _ (SForIn _ _ _) _ => eapply fits_for_in; [typ|stmts]
  | |- fits _ _ _ (SReturn (Some _)) _ => eapply fits_return_value; [typ|sames]
  | |- fits _ _ _ (SMatch _ _) _ => eapply fits_match; [typ|ent|css|repeat constructor; not_in|intros ?; reflexivity]
  end
with css := lazymatch goal with
  | |- cases _ _ _ _ _ [] _ => constructor
  | |- cases _ _ _ _ _ (_ :: _) _ => eapply cases_cons; [hid|ent|reflexivity|repeat constructor; not_in|stmts|css]
  end.

Ltac known := repeat match goal with H : entry _ _ _ |- _ => apply entry_assoc in H; cbn in H | H : context [String.eqb ?a ?b] |- _ => destruct (String.eqb a b) end; try discriminate.
Ltac chosen := repeat match goal with H : _ \/ _ |- _ => destruct H as [H|H] | H : False |- _ => contradiction end.
Ltac are_tidy := split; cbn -[String.eqb];
  [ intros x chain f i g ps r E I; known; injection E as <-; cbn in I; chosen; injection I as <- <- <- <- <-; repeat constructor; not_in
  | intros n ps fs E; known; injection E as <- <-; repeat constructor; not_in
  | intros n ps ms E; known; injection E as <- <-; repeat constructor; not_in
  | intros d I; chosen; subst; repeat constructor ].
Example C54_case : follows_the_rules P0 /\ check_program 30 P0 = [].
Proof.
  split; [|reflexivity]. split.
  - are_tidy.
  - repeat apply Forall_cons; try exact I; try apply Forall_nil.
    + split; [repeat constructor; not_in|]. split; [cbn; stmts|right; repeat constructor].
    + split; [repeat constructor; not_in|]. split; [cbn; stmts|right; repeat constructor].
    + split; [repeat constructor; not_in|]. eexists. split; [cbn; typ|constructor].
    + split; [repeat constructor; not_in|]. split; [cbn; stmts|right; repeat constructor].
Qed.
