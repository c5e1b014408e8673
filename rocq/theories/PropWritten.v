(** Programs as they are written, declarations and bodies together: theorems for properties C53 and C54. *)
From Coq Require Import String Ascii List Bool PeanoNat ZArith Lia.
From Verif Require Import TypeModel TypeSpec TypeGraph CheckModel CheckSpec CheckSafe CheckSound PropCheck CheckRules CheckComplete PropRules
  DeclModel DeclSpec DeclProofs DeclNames DeclAccept DeclTidy PropDecl.
Import ListNotations.
Local Open Scope string_scope.
Local Open Scope nat_scope.
Local Open Scope list_scope.

(* --------------------------------------------------------------------------------- C54 *)

(** The body of a function is right, given its type parameters and parameters. *)
Definition body_fits (P : program) (d : fdef) : Prop :=
  let F := [params (f_types d) (f_params d)] in
  match f_body d with
  | BBlock body => block P F (f_ret d) body /\ (f_ret d = TNothing \/ ends body)
  | BExpr e => exists t, has P F e t /\ same (f_ret d) t
  | BExtern | BStruct _ | BCons _ _ => True
  end.

(** Of a program whose declarations are accepted only the bodies have to follow the rules. *)
Theorem C54_bodies_by_the_rules_are_accepted_partial : forall ds P, declare_all ds = Accepted P -> Forall (body_fits P) (p_funs P) ->
  exists n0, forall n, n0 <= n -> check_program n P = [].
Proof.
  intros ds P E F. apply follows_accepted. split; [exact (declared_tidy _ _ E)|]. rewrite Forall_forall in *. intros d I.
  specialize (F d I). pose proof (declared_params_differ _ _ E d I) as N. unfold body_fits in F. unfold fun_fits.
  destruct (f_body d); auto.
Qed.
Print Assumptions C54_bodies_by_the_rules_are_accepted_partial.

(** Good declarations whose bodies follow the rules are accepted, by both parts of the
    compiler. *)
Theorem C54_good_programs_are_accepted_partial : forall ds cs, good ds cs ->
  (forall P, declare_all ds = Accepted P -> Forall (body_fits P) (p_funs P)) ->
  exists P n0, declare_all ds = Accepted P /\ forall n, n0 <= n -> check_program n P = [].
Proof.
  intros ds cs G H. destruct (accepted ds cs G) as [P E]. destruct (C54_bodies_by_the_rules_are_accepted_partial _ _ E (H P E)) as [n0 A]. eauto.
Qed.
Print Assumptions C54_good_programs_are_accepted_partial.

(** And they do not go wrong. *)
Theorem C54_good_programs_do_not_go_wrong_partial : forall ds cs, good ds cs -> all_names_ok ds -> unshadowed ds -> all_complete ds ->
  (forall P, declare_all ds = Accepted P -> Forall (body_fits P) (p_funs P)) ->
  exists P n0, declare_all ds = Accepted P /\ Forall (stands P) ds /\ forall n, n0 <= n -> check_program n P = [] /\
  forall M, externs_ok M P (checked n P) ->
  forall k f d vs, nth_error (p_funs P) f = Some d -> Forall2 plain_val vs (map snd (f_params d)) ->
  match call M P (checked n P) k [] (VFun f) vs with
  | Wrong => False
  | CheckSpec.Fine (v, _) => plain_type (f_ret d) -> plain_val v (f_ret d)
  | _ => True
  end.
Proof.
  intros ds cs G N U C H. destruct (C54_good_programs_are_accepted_partial ds cs G H) as (P & n0 & E & A).
  exists P, n0. split; [exact E|]. split; [exact (declarations_stand _ _ E N U)|]. intros n L. split; [auto|]. intros M X.
  exact (C53_written_programs_do_not_go_wrong_partial M ds P n E N U C X (A n L)).
Qed.
Print Assumptions C54_good_programs_do_not_go_wrong_partial.

(** The program of C53. *)
Definition s1 (p : nat) : ty := match p with 2 => TString | _ => TInt end.
Ltac root ::= match goal with |- calls _ _ (EId ?x) _ _ _ => eapply (calls_root _ _ x _ _ _ [] _ _ []) end;
  [hid|ent|unfold special; intuition discriminate|constructor|constructor|
   first [eapply instance_plain; sames | eapply (instance_generic _ _ _ _ _ _ s1); [discriminate|left; reflexivity|sames|det]]].
Definition Pw : program := Eval vm_compute in of_decls ds0.
Example C54_written_case : good ds0 ["Pair"] /\ forall P, declare_all ds0 = Accepted P -> Forall (body_fits P) (p_funs P).
Proof.
  split; [exact C53_good_case|]. intros P E. assert (Q : declare_all ds0 = Accepted Pw) by (vm_compute; reflexivity). rewrite Q in E. injection E as <-. clear Q.
  unfold Pw at 2. cbn [p_funs]. repeat apply Forall_cons; try exact I; try apply Forall_nil.
  - split; [cbn; stmts|right; repeat constructor].
  - split; [cbn; stmts|right; repeat constructor].
  - eexists. split; [cbn; typ|constructor].
Qed.
