(** What it is to put the types into a body, for C59: the same tree, with each written type
    replaced by the one it stands for; no result is nothing.  Independent of [typed]. *)
From Coq Require Import String Ascii ZArith List Bool.
From Verif Require Import TypeModel TypeGraph CheckModel DeclModel ReadModel.
Import ListNotations.
Open Scope list_scope.

Section Types.
Variable env : tenv.
Definition stands (t : texp) (u : ty) : Prop := instantiate env t = ([], Some u).
Definition stands_param (p : string * texp) (q : string * ty) : Prop := fst p = fst q /\ stands (snd p) (snd q).
Inductive stands_result : option texp -> ty -> Prop :=
| sr_none : stands_result None TNothing
| sr_some t u : stands t u -> stands_result (Some t) u.

Inductive puts : rexpr -> expr -> Prop :=
| pu_lit l : puts (RLit l) (ELit l)
| pu_id x : puts (RId x) (EId x)
| pu_arith o l r l' r' : puts l l' -> puts r r' -> puts (RArith o l r) (EArith o l' r')
| pu_logic o l r l' r' : puts l l' -> puts r r' -> puts (RLogic o l r) (ELogic o l' r')
| pu_cmp o l r l' r' : puts l l' -> puts r r' -> puts (RCmp o l r) (ECmp o l' r')
| pu_not e e' : puts e e' -> puts (RNot e) (ENot e')
| pu_bnot e e' : puts e e' -> puts (RBNot e) (EBNot e')
| pu_neg e e' : puts e e' -> puts (RNeg e) (ENeg e')
| pu_call f ts args f' us args' : puts f f' -> Forall2 stands ts us -> puts_list args args' -> puts (RCall f ts args) (ECall f' us args')
| pu_dot l r l' r' : puts l l' -> puts r r' -> puts (RDot l r) (EDot l' r')
| pu_index l r l' r' : puts l l' -> puts r r' -> puts (RIndex l r) (EIndex l' r')
| pu_arr es es' : puts_list es es' -> puts (RArrLit es) (EArrLit es')
| pu_tern c a b c' a' b' : puts c c' -> puts a a' -> puts b b' -> puts (RTern c a b) (ETern c' a' b')
| pu_fn ps u b qs v b' : Forall2 stands_param ps qs -> stands_result u v -> puts_block b b' -> puts (RFn ps u b) (EFn [] qs v b')
| pu_fn_expr ps u e qs v e' : Forall2 stands_param ps qs -> stands_result u v -> puts e e' -> puts (RFnExpr ps u e) (EFnExpr [] qs v e')
| pu_type t u : stands t u -> puts (RType t) (EType u)
with puts_list : list rexpr -> list expr -> Prop :=
| pul_nil : puts_list [] []
| pul_cons e l e' l' : puts e e' -> puts_list l l' -> puts_list (e :: l) (e' :: l')
with puts_stmt : rstmt -> stmt -> Prop :=
| ps_do e e' : puts e e' -> puts_stmt (RDo e) (SExpr e')
| ps_das l r l' r' : puts l l' -> puts r r' -> puts_stmt (RDas l r) (SDas l' r')
| ps_as l r l' r' : puts l l' -> puts r r' -> puts_stmt (RAs l r) (SAs l' r')
| ps_while c b c' b' : puts c c' -> puts_block b b' -> puts_stmt (RWhile c b) (SWhile c' b')
| ps_for_in x e b e' b' : puts e e' -> puts_block b b' -> puts_stmt (RForIn x e b) (SForIn x e' b')
| ps_for_range x a c b a' c' b' : puts a a' -> puts c c' -> puts_block b b' -> puts_stmt (RForRange x a c b) (SForRange x a' c' b')
| ps_if c b c' b' : puts c c' -> puts_block b b' -> puts_stmt (RIf c b None) (SIf c' b' None)
| ps_if_else c b r c' b' r' : puts c c' -> puts_block b b' -> puts_stmt r r' -> puts_stmt (RIf c b (Some r)) (SIf c' b' (Some r'))
| ps_else b b' : puts_block b b' -> puts_stmt (RElse b) (SElse b')
| ps_return0 : puts_stmt (RReturn None) (SReturn None)
| ps_return e e' : puts e e' -> puts_stmt (RReturn (Some e)) (SReturn (Some e'))
| ps_match e cs e' cs' : puts e e' -> puts_cases cs cs' -> puts_stmt (RMatch e cs) (SMatch e' cs')
with puts_block : list rstmt -> list stmt -> Prop :=
| pb_nil : puts_block [] []
| pb_cons s l s' l' : puts_stmt s s' -> puts_block l l' -> puts_block (s :: l) (s' :: l')
with puts_cases : list (string * list string * list rstmt) -> list (string * list string * list stmt) -> Prop :=
| pc_nil : puts_cases [] []
| pc_cons x b l b' l' : puts_block b b' -> puts_cases l l' -> puts_cases ((x, b) :: l) ((x, b') :: l').
Scheme puts_m := Minimality for puts Sort Prop with puts_list_m := Minimality for puts_list Sort Prop
  with puts_stmt_m := Minimality for puts_stmt Sort Prop with puts_block_m := Minimality for puts_block Sort Prop
  with puts_cases_m := Minimality for puts_cases Sort Prop.
Combined Scheme puts_all from puts_m, puts_list_m, puts_stmt_m, puts_block_m, puts_cases_m.

Lemma stands_known t u : stands t u -> known env t = Some u.
Proof. unfold stands, known. now intros ->. Qed.
Lemma stands_all ts us : Forall2 stands ts us -> all (known env) ts = Some us.
Proof. unfold all. induction 1 as [|t u ts us H _ IH]; [reflexivity|]. cbn. rewrite (stands_known _ _ H). cbn in IH. now rewrite IH. Qed.
Lemma stands_params ps qs : Forall2 stands_param ps qs -> all (known_param env) ps = Some qs.
Proof.
  unfold all. induction 1 as [|[x t] [y u] ps qs [H1 H2] _ IH]; [reflexivity|]. cbn in *. subst. unfold known_param at 1. cbn. rewrite (stands_known _ _ H2). cbn. now rewrite IH.
Qed.
Lemma stands_res u v : stands_result u v -> known_result env u = Some v.
Proof. destruct 1; [reflexivity|now apply stands_known]. Qed.

Lemma puts_typed : (forall e x, puts e x -> typed env e = x) /\ (forall l x, puts_list l x -> map (typed env) l = x) /\
  (forall s x, puts_stmt s x -> typed_stmt env s = x) /\ (forall l x, puts_block l x -> map (typed_stmt env) l = x) /\
  (forall l x, puts_cases l x -> map (fun c => (fst c, map (typed_stmt env) (snd c))) l = x).
Proof.
  apply puts_all; intros; cbn [typed typed_stmt map fst snd];
    repeat match goal with
    | H : Forall2 stands _ _ |- _ => apply stands_all in H; rewrite H; clear H
    | H : Forall2 stands_param _ _ |- _ => apply stands_params in H; rewrite H; clear H
    | H : stands_result _ _ |- _ => apply stands_res in H; rewrite H; clear H
    | H : stands _ _ |- _ => apply stands_known in H; rewrite H; clear H
    end; first [congruence|fold (typed env); fold (typed_stmt env); congruence].
Qed.
End Types.

(** The bytes of a name are kept. *)
Lemma str_bytes l : Forall (fun c => (0 <= c < 256)%Z) l -> map (fun c => Z.of_nat (nat_of_ascii c)) (list_ascii_of_string (str l)) = l.
Proof.
  induction 1 as [|c l H _ IH]; [reflexivity|]. cbn [str list_ascii_of_string map]. rewrite IH. f_equal. rewrite nat_ascii_embedding by (apply Nat2Z.inj_lt; rewrite Z2Nat.id by apply H; apply H). apply Z2Nat.id, H.
Qed.
