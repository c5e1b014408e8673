(** Expressions over ints and bools: what they mean in terms of numbers and truth
    values, and that the interpreter of GenSpec.v gives them that meaning. *)
From Coq Require Import ZArith List Bool String Lia.
From Verif Require Import Ints X86 GenModel GenSpec GenMem GenStatic GenSlots.
Import ListNotations.
Open Scope Z_scope.

(* ---------------------------------------------------------------------------- meaning *)

Inductive pval := VInt (z : Z) | VBool (b : bool).
(** [PWrong]: a variable without value or an operand of the wrong kind. *)
Inductive pres := PVal (v : pval) | PDivZero | PWrong.
Definition ints (a b : pres) (k : Z -> Z -> pres) : pres :=
  match a with
  | PVal (VInt x) => match b with PVal (VInt y) => k x y | PDivZero => PDivZero | _ => PWrong end
  | PDivZero => PDivZero
  | _ => PWrong
  end.
Definition bools (a b : pres) (k : bool -> bool -> pres) : pres :=
  match a with
  | PVal (VBool x) => match b with PVal (VBool y) => k x y | PDivZero => PDivZero | _ => PWrong end
  | PDivZero => PDivZero
  | _ => PWrong
  end.

(** Arithmetic of 63-bit two's complement numbers ([wrap], Ints.v). *)
Fixpoint meaning (rho : nat -> option pval) (e : expr) : pres :=
  match e with
  | ELitInt _ z => PVal (VInt (wrap z))
  | ELitBool _ b => PVal (VBool b)
  | EVar _ x => match rho x with Some v => PVal v | None => PWrong end
  | EArith _ op l r =>
      ints (meaning rho l) (meaning rho r) (fun a b =>
        match op with
        | Add => PVal (VInt (wrap (a + b)))
        | Sub => PVal (VInt (wrap (a - b)))
        | Mul => PVal (VInt (wrap (a * b)))
        | Div => if b =? 0 then PDivZero else PVal (VInt (wrap (Z.quot a b)))
        | BOr => PVal (VInt (Z.lor a b))
        | BAnd => PVal (VInt (Z.land a b))
        | BXor => PVal (VInt (Z.lxor a b))
        end)
  | EBNot _ a => match meaning rho a with PVal (VInt x) => PVal (VInt (Z.lnot x)) | PDivZero => PDivZero | _ => PWrong end
  | ENeg _ a => match meaning rho a with PVal (VInt x) => PVal (VInt (wrap (- x))) | PDivZero => PDivZero | _ => PWrong end
  | EShift _ op l r =>
      ints (meaning rho l) (meaning rho r) (fun a b =>
        match op with
        | BLeft => PVal (VInt (wrap (a * 2 ^ (b mod 64))))
        | BRight => PVal (VInt (a / 2 ^ (b mod 64)))
        end)
  | ECmp _ op l r =>
      ints (meaning rho l) (meaning rho r) (fun a b =>
        PVal (VBool (match op with
                     | Gt => if Z_gt_dec a b then true else false
                     | Gte => if Z_ge_dec a b then true else false
                     | Lt => if Z_lt_dec a b then true else false
                     | Lte => if Z_le_dec a b then true else false
                     | Eq => if Z.eq_dec a b then true else false
                     end)))
  | ELogic _ op l r =>
      bools (meaning rho l) (meaning rho r) (fun a b =>
        PVal (VBool (match op with Or => orb a b | And => andb a b end)))
  | ENot _ a => match meaning rho a with PVal (VBool x) => PVal (VBool (negb x)) | PDivZero => PDivZero | _ => PWrong end
  | ECond _ c a b =>
      match meaning rho c with
      | PVal (VBool x) => meaning rho (if x then a else b)
      | PDivZero => PDivZero
      | _ => PWrong
      end
  | _ => PWrong
  end.

(** The words of numbers and truth values. *)
Definition word_of (v : pval) : Z := match v with VInt z => word (2 * z + 1) | VBool b => if b then 1 else 0 end.
Definition in_range (v : pval) : Prop := match v with VInt z => is_int z | VBool _ => True end.
(** Variables hold the words of their values. *)
Definition holds (rho : nat -> option pval) (r : nat -> option Z) : Prop :=
  forall x v, rho x = Some v -> in_range v /\ r x = Some (word_of v).

(* ----------------------------------------------------------------------------- proofs *)

Lemma meaning_range rho r e v : holds rho r -> meaning rho e = PVal v -> in_range v.
Proof.
  intros Hr. revert v. assert (Hb : forall a b, is_int a -> is_int b ->
    is_int (Z.lor a b) /\ is_int (Z.land a b) /\ is_int (Z.lxor a b)).
  { intros a b Ha Hb. assert (E : forall z, is_int z <-> - 2 ^ 62 <= z < 2 ^ 62) by (intros z; unfold is_int, int_min, int_max; lia).
    assert (B : forall z, is_int z <-> exists b, forall n, 62 <= n -> Z.testbit z n = b).
    { intros z. rewrite E. split.
      - intros Hz. exists (z <? 0). intros n Hn. destruct (Z.ltb_spec z 0) as [Hs|Hs].
        + rewrite <- (Z.lnot_involutive z), Z.lnot_spec by lia. rewrite <- negb_false_iff, negb_involutive.
          destruct (Z.eq_dec (Z.lnot z) 0) as [->|Hz0]; [apply Z.bits_0|].
          apply Z.bits_above_log2; [unfold Z.lnot; lia|]. apply Z.log2_lt_pow2; [unfold Z.lnot in *; lia|].
          apply Z.lt_le_trans with (2 ^ 62); [unfold Z.lnot; lia|apply Z.pow_le_mono_r; lia].
        + destruct (Z.eq_dec z 0) as [->|Hz0]; [apply Z.bits_0|]. apply Z.bits_above_log2; [lia|]. apply Z.log2_lt_pow2; [lia|].
          apply Z.lt_le_trans with (2 ^ 62); [lia|apply Z.pow_le_mono_r; lia].
      - intros [c Hc]. assert (Hs : Z.shiftr z 62 = if c then -1 else 0).
        { apply Z.bits_inj'. intros n Hn. rewrite Z.shiftr_spec by lia. rewrite Hc by lia. destruct c; [now rewrite Z.bits_m1|now rewrite Z.bits_0]. }
        rewrite Z.shiftr_div_pow2 in Hs by lia. pose proof (Z.div_mod z (2 ^ 62) ltac:(lia)).
        pose proof (Z.mod_pos_bound z (2 ^ 62) ltac:(lia)). destruct c; lia. }
    apply B in Ha as [x Ha]. apply B in Hb as [y Hb]. split; [|split]; apply B.
    - exists (x || y). intros n Hn. rewrite Z.lor_spec, Ha, Hb by exact Hn. reflexivity.
    - exists (x && y). intros n Hn. rewrite Z.land_spec, Ha, Hb by exact Hn. reflexivity.
    - exists (xorb x y). intros n Hn. rewrite Z.lxor_spec, Ha, Hb by exact Hn. reflexivity. }
  induction e; intros v H; cbn [meaning] in H; try discriminate;
    repeat match type of H with
    | ints ?a ?b ?k = _ => unfold ints in H
    | bools ?a ?b ?k = _ => unfold bools in H
    | match meaning rho ?a with _ => _ end = _ => destruct (meaning rho a) as [[]| |] eqn:?; try discriminate
    | match rho ?a with _ => _ end = _ => destruct (rho a) eqn:?; try discriminate
    | match ?op with Add => _ | _ => _ end = _ => destruct op
    | match ?op with BLeft => _ | _ => _ end = _ => destruct op
    | (if ?b then _ else _) = _ => destruct b; try discriminate
    end; try (injection H as <-; cbn [in_range]; first [exact I | apply wrap_is_int | assumption | idtac]);
    repeat match goal with IH : forall v, PVal (VInt ?z) = PVal v -> _ |- _ =>
      lazymatch goal with _ : in_range (VInt z) |- _ => fail | _ => pose proof (IH (VInt z) eq_refl) end end; cbn [in_range] in *;
    try match goal with
    | |- is_int (Z.lor _ _) => apply Hb; assumption
    | |- is_int (Z.land _ _) => apply Hb; assumption
    | |- is_int (Z.lxor _ _) => apply Hb; assumption
    end.
  - unfold is_int, int_min, int_max, Z.lnot in *. lia.
  - assert (0 < 2 ^ (z0 mod 64)) by (apply Z.pow_pos_nonneg; [lia|]; apply Z.mod_pos_bound; lia).
    assert (Hq : Z.abs z < 2 ^ (z0 mod 64) * 4611686018427387905).
    { unfold is_int, int_min, int_max in *. nia. }
    unfold is_int, int_min, int_max in *.
    pose proof (Z.div_mod z (2 ^ (z0 mod 64)) ltac:(lia)). pose proof (Z.mod_pos_bound z (2 ^ (z0 mod 64)) ltac:(lia)). nia.
  - eapply Hr in Heqo. tauto.
  - destruct b; eauto.
Qed.

(** How deep an expression is nested. *)
Fixpoint height (e : expr) : nat :=
  match e with
  | EArith _ _ l r | EShift _ _ l r | ECmp _ _ l r | ELogic _ _ l r => S (Nat.max (height l) (height r))
  | EBNot _ a | ENeg _ a | ENot _ a => S (height a)
  | ECond _ c a b => S (Nat.max (height c) (Nat.max (height a) (height b)))
  | _ => 1%nat
  end.

Lemma ival_word_of z : is_int z -> ival (word_of (VInt z)) = z.
Proof. intros H. change (word_of (VInt z)) with (wint z). rewrite ival_wint. now apply wrap_id. Qed.
Lemma as_bool_word b : as_bool (word_of (VBool b)) = Some b.
Proof. destruct b; reflexivity. Qed.

Section Eval.
Variables (heap : Z -> bool) (lit : list Z -> Z) (fun_addr : string -> Z) (fun_at : Z -> option string)
  (extern abstract : string -> list (option Z) -> memory -> option (option Z * memory)) (alloc : string) (prog : list fundef).
Notation EVAL := (eval heap lit fun_addr fun_at extern abstract alloc prog).

Lemma eval_meaning rho r h d : holds rho r -> forall e N, (height e <= N)%nat ->
  match meaning rho e with
  | PVal v => EVAL N d r h e = Val (Some (word_of v), h)
  | PDivZero => EVAL N d r h e = DivZero
  | PWrong => True
  end.
Proof.
  intros Hr e. induction e; intros N HN; (destruct N as [|N]; [cbn [height] in HN; try lia; exact I|]);
    cbn [meaning height] in *; try exact I.
  - cbn [eval]. change (word_of (VInt (wrap z))) with (wint (wrap z)). now rewrite wint_wrap.
  - cbn [eval]. destruct b; reflexivity.
  - (* logic *)
    specialize (IHe1 N ltac:(lia)). specialize (IHe2 N ltac:(lia)). unfold bools. cbn [eval].
    destruct (meaning rho e1) as [[x|x]| |]; try exact I; [|rewrite IHe1; reflexivity].
    rewrite IHe1. cbn [need bind]. destruct (meaning rho e2) as [[y|y]| |]; try exact I; [|rewrite IHe2; reflexivity].
    rewrite IHe2. cbn [need bind]. rewrite !as_bool_word. destruct op; reflexivity.
  - (* arithmetic *)
    specialize (IHe1 N ltac:(lia)). specialize (IHe2 N ltac:(lia)). unfold ints. cbn [eval].
    destruct (meaning rho e1) as [[x|x]| |] eqn:E1; try exact I; [|rewrite IHe1; reflexivity].
    rewrite IHe1. cbn [need bind]. destruct (meaning rho e2) as [[y|y]| |] eqn:E2; try exact I; [|rewrite IHe2; reflexivity].
    rewrite IHe2. cbn [need bind]. pose proof (meaning_range rho r e1 _ Hr E1). pose proof (meaning_range rho r e2 _ Hr E2).
    cbn [in_range] in *. rewrite !ival_word_of by assumption. destruct op; cbn [sem_arith]; try reflexivity.
    unfold idiv. destruct (y =? 0); reflexivity.
  - specialize (IHe N ltac:(lia)). cbn [eval]. destruct (meaning rho e) as [[x|x]| |]; try exact I; rewrite IHe; [|reflexivity].
    cbn [need bind]. rewrite as_bool_word. reflexivity.
  - specialize (IHe N ltac:(lia)). cbn [eval]. destruct (meaning rho e) as [[x|x]| |] eqn:E; try exact I; rewrite IHe; [|reflexivity].
    cbn [need bind]. pose proof (meaning_range rho r e _ Hr E). rewrite ival_word_of by assumption. reflexivity.
  - specialize (IHe N ltac:(lia)). cbn [eval]. destruct (meaning rho e) as [[x|x]| |] eqn:E; try exact I; rewrite IHe; [|reflexivity].
    cbn [need bind]. pose proof (meaning_range rho r e _ Hr E). rewrite ival_word_of by assumption. reflexivity.
  - (* comparison *)
    specialize (IHe1 N ltac:(lia)). specialize (IHe2 N ltac:(lia)). unfold ints. cbn [eval].
    destruct (meaning rho e1) as [[x|x]| |] eqn:E1; try exact I; [|rewrite IHe1; reflexivity].
    rewrite IHe1. cbn [need bind]. destruct (meaning rho e2) as [[y|y]| |] eqn:E2; try exact I; [|rewrite IHe2; reflexivity].
    rewrite IHe2. cbn [need bind]. pose proof (meaning_range rho r e1 _ Hr E1). pose proof (meaning_range rho r e2 _ Hr E2).
    cbn [in_range] in *. rewrite !ival_word_of by assumption. do 3 f_equal. cbn [word_of]. unfold wbool, sem_cmp.
    destruct op.
    + rewrite Z.gtb_ltb. destruct (Z.ltb_spec y x), (Z_gt_dec x y); try reflexivity; lia.
    + rewrite Z.geb_leb. destruct (Z.leb_spec y x), (Z_ge_dec x y); try reflexivity; lia.
    + destruct (Z.ltb_spec x y), (Z_lt_dec x y); try reflexivity; lia.
    + destruct (Z.leb_spec x y), (Z_le_dec x y); try reflexivity; lia.
    + destruct (Z.eqb_spec x y), (Z.eq_dec x y); try reflexivity; lia.
  - (* shift *)
    specialize (IHe1 N ltac:(lia)). specialize (IHe2 N ltac:(lia)). unfold ints. cbn [eval].
    destruct (meaning rho e1) as [[x|x]| |] eqn:E1; try exact I; [|rewrite IHe1; reflexivity].
    rewrite IHe1. cbn [need bind]. destruct (meaning rho e2) as [[y|y]| |] eqn:E2; try exact I; [|rewrite IHe2; reflexivity].
    rewrite IHe2. cbn [need bind]. pose proof (meaning_range rho r e1 _ Hr E1). pose proof (meaning_range rho r e2 _ Hr E2).
    cbn [in_range] in *. rewrite !ival_word_of by assumption.
    assert (0 <= y mod 64) by (apply Z.mod_pos_bound; lia).
    destruct op; cbn [sem_shift]; unfold ishl, ishr; [rewrite Z.shiftl_mul_pow2 by lia|rewrite Z.shiftr_div_pow2 by lia]; reflexivity.
  - cbn [eval]. destruct (rho x) as [v|] eqn:E; [|exact I]. apply Hr in E as [_ ->]. reflexivity.
  - specialize (IHe1 N ltac:(lia)). cbn [eval]. destruct (meaning rho e1) as [[x|x]| |]; try exact I; rewrite IHe1; [|reflexivity].
    cbn [need bind]. rewrite as_bool_word. destruct x; [apply IHe2; lia|apply IHe3; lia].
Qed.
End Eval.

(** Expressions over ints and bools do not fall under the restrictions on arguments. *)
Fixpoint plain_expr (e : expr) : bool :=
  match e with
  | ELitInt _ _ | ELitBool _ _ | EVar _ _ => true
  | EArith _ _ l r | EShift _ _ l r | ECmp _ _ l r | ELogic _ _ l r => plain_expr l && plain_expr r
  | EBNot _ a | ENeg _ a | ENot _ a => plain_expr a
  | ECond _ c a b => plain_expr c && plain_expr a && plain_expr b
  | _ => false
  end.
Fixpoint plain_stmt (st : stmt) : bool :=
  let fix plain_list (l : list stmt) : bool :=
    match l with [] => true | s :: r => plain_stmt s && plain_list r end in
  let fix plain_branches (bs : list (option expr * list stmt)) : bool :=
    match bs with
    | [] => true
    | (c, b) :: r => (match c with Some e => plain_expr e | None => true end) && plain_list b && plain_branches r
    end in
  match st with
  | SReturn (Some e) => plain_expr e
  | SReturn None => true
  | SIf bs => plain_branches bs
  | SDas _ _ e => plain_expr e
  | SAs (EVar _ _) e => plain_expr e
  | SAs _ _ => false
  | SWhile c b => plain_expr c && plain_list b
  | SBlock b => plain_list b
  | SExpr e => plain_expr e
  end.
Fixpoint plain_list (l : list stmt) : bool :=
  match l with [] => true | s :: r => plain_stmt s && plain_list r end.

Lemma plain_safe e : forall k, (k <= 2)%nat -> plain_expr e = true -> safe k e = true.
Proof.
  induction e; intros k Hk H; cbn [plain_expr safe] in *; try discriminate; auto;
    rewrite ?andb_true_iff in H; try (rewrite IHe1, IHe2 by tauto; try reflexivity).
  - destruct op; rewrite ?IHe1, ?IHe2 by tauto; try reflexivity. rewrite (proj2 (Nat.leb_le k 2) Hk). reflexivity.
  - rewrite (proj2 (Nat.leb_le k 3)) by lia. reflexivity.
  - rewrite IHe3 by tauto. reflexivity.
Qed.

Lemma plain_stmt_safe st : plain_stmt st = true -> safe_stmt st = true.
Proof.
  assert (LL : forall l, Forall (fun st => plain_stmt st = true -> safe_stmt st = true) l -> plain_list l = true -> safe_list l = true).
  { induction 1 as [|s l Hs _ IH]; intros H; [reflexivity|]. cbn [plain_list safe_list] in *. rewrite andb_true_iff in *. tauto. }
  induction st using stmt_ind'; intros Hp; cbn [plain_stmt safe_stmt] in *.
  - destruct e; [now apply plain_safe; [lia|]|reflexivity].
  - change (plain_stmt (SIf bs) = true) in Hp. change (safe_branches bs = true).
    assert (Hp' : (fix plain_branches (bs : list (option expr * list stmt)) : bool :=
      match bs with
      | [] => true
      | (c, b) :: r => (match c with Some e => plain_expr e | None => true end) && plain_list b && plain_branches r
      end) bs = true) by exact Hp. clear Hp. revert Hp'.
    induction H as [|[c b] bs Hb _ IH]; intros Hp; [reflexivity|]. cbn [safe_branches]. cbn [snd] in Hb.
    rewrite !andb_true_iff in *. destruct Hp as [[H1 H2] H3]. split; [split|auto].
    + destruct c; [apply plain_safe; [lia|exact H1]|reflexivity].
    + now apply LL.
  - now apply plain_safe; [lia|].
  - destruct l; try discriminate. cbn [safe andb]. now apply plain_safe; [lia|].
  - rewrite andb_true_iff in *. destruct Hp as [H1 H2]. split; [now apply plain_safe; [lia|]|]. now apply LL.
  - now apply LL.
  - now apply plain_safe; [lia|].
Qed.
Lemma plain_list_safe l : plain_list l = true -> safe_list l = true.
Proof.
  induction l as [|s l IH]; intros H; [reflexivity|]. cbn [plain_list safe_list] in *. rewrite andb_true_iff in *.
  destruct H. split; [now apply plain_stmt_safe|auto].
Qed.

(* ------------------------------------------------------------------------- statements *)

(** What statements over ints and bools do: run to their end, return, or stop the
    program by dividing by zero. *)
Inductive finish := FNormal | FReturn (v : option pval) | FDivZero.
Notation state := (nat -> option pval) (only parsing).
Definition upd (rho : state) (x : nat) (v : pval) : state := fun y => if Nat.eqb x y then Some v else rho y.

Inductive does : state -> stmt -> finish -> state -> Prop :=
| D_return rho e v : meaning rho e = PVal v -> does rho (SReturn (Some e)) (FReturn (Some v)) rho
| D_return_nothing rho : does rho (SReturn None) (FReturn None) rho
| D_return_div rho e : meaning rho e = PDivZero -> does rho (SReturn (Some e)) FDivZero rho
| D_das rho x t e v : meaning rho e = PVal v -> does rho (SDas x t e) FNormal (upd rho x v)
| D_das_div rho x t e : meaning rho e = PDivZero -> does rho (SDas x t e) FDivZero rho
| D_as rho x t e v : meaning rho e = PVal v -> does rho (SAs (EVar t x) e) FNormal (upd rho x v)
| D_as_div rho x t e : meaning rho e = PDivZero -> does rho (SAs (EVar t x) e) FDivZero rho
| D_expr rho e v : meaning rho e = PVal v -> does rho (SExpr e) FNormal rho
| D_expr_div rho e : meaning rho e = PDivZero -> does rho (SExpr e) FDivZero rho
| D_block rho b f rho' : does_list rho b f rho' -> does rho (SBlock b) f rho'
| D_if rho bs f rho' : does_if rho bs f rho' -> does rho (SIf bs) f rho'
| D_while_end rho c b : meaning rho c = PVal (VBool false) -> does rho (SWhile c b) FNormal rho
| D_while_div rho c b : meaning rho c = PDivZero -> does rho (SWhile c b) FDivZero rho
| D_while_again rho c b rho1 f rho2 : meaning rho c = PVal (VBool true) -> does_list rho b FNormal rho1 ->
    does rho1 (SWhile c b) f rho2 -> does rho (SWhile c b) f rho2
| D_while_out rho c b f rho1 : meaning rho c = PVal (VBool true) -> does_list rho b f rho1 -> f <> FNormal ->
    does rho (SWhile c b) f rho1
with does_list : state -> list stmt -> finish -> state -> Prop :=
| D_nil rho : does_list rho [] FNormal rho
| D_cons rho st l rho1 f rho2 : does rho st FNormal rho1 -> does_list rho1 l f rho2 -> does_list rho (st :: l) f rho2
| D_out rho st l f rho1 : does rho st f rho1 -> f <> FNormal -> does_list rho (st :: l) f rho1
with does_if : state -> list (option expr * list stmt) -> finish -> state -> Prop :=
| D_none rho : does_if rho [] FNormal rho
| D_else rho b f rho' : does_list rho b f rho' -> does_if rho [(None, b)] f rho'
| D_then rho c b rest f rho' : meaning rho c = PVal (VBool true) -> does_list rho b f rho' -> does_if rho ((Some c, b) :: rest) f rho'
| D_next rho c b rest f rho' : meaning rho c = PVal (VBool false) -> does_if rho rest f rho' -> does_if rho ((Some c, b) :: rest) f rho'
| D_cond_div rho c b rest : meaning rho c = PDivZero -> does_if rho ((Some c, b) :: rest) FDivZero rho.

(** What a function over ints and bools does: [Some (Some v)]: it returns [v]; [Some None]: it
    returns nothing; [None]: it divides by zero. *)
Inductive returns (rho : state) (fd : fundef) : option (option pval) -> Prop :=
| R_expr e v : f_body fd = BExpr e -> meaning rho e = PVal v -> returns rho fd (Some (Some v))
| R_expr_div e : f_body fd = BExpr e -> meaning rho e = PDivZero -> returns rho fd None
| R_return l v rho' : f_body fd = BBlock l -> does_list rho l (FReturn v) rho' -> returns rho fd (Some v)
| R_end l rho' : f_body fd = BBlock l -> does_list rho l FNormal rho' -> f_ret fd = TNothing -> returns rho fd (Some None)
| R_div l rho' : f_body fd = BBlock l -> does_list rho l FDivZero rho' -> returns rho fd None.

Scheme does_ind' := Induction for does Sort Prop
  with does_list_ind' := Induction for does_list Sort Prop
  with does_if_ind' := Induction for does_if Sort Prop.
Combined Scheme does_mut from does_ind', does_list_ind', does_if_ind'.

Section Exec.
Variables (heap : Z -> bool) (lit : list Z -> Z) (fun_addr : string -> Z) (fun_at : Z -> option string)
  (extern abstract : string -> list (option Z) -> memory -> option (option Z * memory)) (alloc : string) (prog : list fundef).
Notation EVAL := (eval heap lit fun_addr fun_at extern abstract alloc prog).
Notation EXEC := (exec_stmt heap lit fun_addr fun_at extern abstract alloc prog).
Notation EXEC_LIST := (exec_list heap lit fun_addr fun_at extern abstract alloc prog).
Notation EXEC_IF := (exec_if heap lit fun_addr fun_at extern abstract alloc prog).
Notation RUN_FUN := (run_fun heap lit fun_addr fun_at extern abstract alloc prog).

(** The interpreter ends in the same way, whatever (large enough) number of steps. *)
Definition ends_as (h : memory) (f : finish) (rho' : state) (x : res (outcome * (nat -> option Z) * memory)) : Prop :=
  match f with
  | FNormal => exists r', x = Val (ONormal, r', h) /\ holds rho' r'
  | FReturn v => exists r', x = Val (OReturn (option_map word_of v), r', h)
  | FDivZero => x = DivZero
  end.

Lemma holds_upd rho r x v : in_range v -> holds rho r -> holds (upd rho x v) (env_set r x (word_of v)).
Proof.
  intros Hv Hr y u. unfold upd, env_set. destruct (Nat.eqb x y); [|apply Hr]. injection 1 as <-. split; [exact Hv|reflexivity].
Qed.
Lemma eval_val rho r h d e v N : holds rho r -> meaning rho e = PVal v -> (height e <= N)%nat -> EVAL N d r h e = Val (Some (word_of v), h).
Proof. intros Hr Hm HN. pose proof (eval_meaning heap lit fun_addr fun_at extern abstract alloc prog rho r h d Hr e N HN) as H. now rewrite Hm in H. Qed.
Lemma eval_div rho r h d e N : holds rho r -> meaning rho e = PDivZero -> (height e <= N)%nat -> EVAL N d r h e = DivZero.
Proof. intros Hr Hm HN. pose proof (eval_meaning heap lit fun_addr fun_at extern abstract alloc prog rho r h d Hr e N HN) as H. now rewrite Hm in H. Qed.

Lemma exec_return N d r h e : EXEC (S N) d r h (SReturn (Some e)) = bind (EVAL N d r h e) (fun '(v, h) => Val (OReturn v, r, h)).
Proof. reflexivity. Qed.
Lemma exec_das N d r h x t e : EXEC (S N) d r h (SDas x t e) = need (EVAL N d r h e) (fun v h => Val (ONormal, env_set r x v, h)).
Proof. reflexivity. Qed.
Lemma exec_as N d r h x t e : EXEC (S N) d r h (SAs (EVar t x) e) = need (EVAL N d r h e) (fun v h => Val (ONormal, env_set r x v, h)).
Proof. reflexivity. Qed.
Lemma exec_expr N d r h e : EXEC (S N) d r h (SExpr e) = bind (EVAL N d r h e) (fun '(_, h) => Val (ONormal, r, h)).
Proof. reflexivity. Qed.
Lemma exec_while N d r h c b : EXEC (S N) d r h (SWhile c b) =
  need (EVAL N d r h c) (fun w h =>
    match as_bool w with
    | None => Stuck
    | Some false => Val (ONormal, r, h)
    | Some true =>
      bind (EXEC_LIST N d r h b) (fun '(o, r, h) =>
        match o with ONormal => EXEC N d r h (SWhile c b) | OReturn v => Val (OReturn v, r, h) end)
    end).
Proof. reflexivity. Qed.
Lemma exec_cons N d r h st rest : EXEC_LIST (S N) d r h (st :: rest) =
  bind (EXEC N d r h st) (fun '(o, r, h) =>
    match o with ONormal => EXEC_LIST N d r h rest | OReturn v => Val (OReturn v, r, h) end).
Proof. reflexivity. Qed.
Lemma exec_branch N d r h c b rest : EXEC_IF (S N) d r h ((Some c, b) :: rest) =
  need (EVAL N d r h c) (fun w h =>
    match as_bool w with None => Stuck | Some true => EXEC_LIST N d r h b | Some false => EXEC_IF N d r h rest end).
Proof. reflexivity. Qed.
Lemma run_block N d fd vs h b : f_body fd = BBlock b -> RUN_FUN (S N) (S d) fd vs h =
  bind (EXEC_LIST N d (bind_params (f_params fd) vs) h b) (fun '(o, _, h) =>
    match o with
    | OReturn v => Val (v, h)
    | ONormal => if kind_eqb (f_ret fd) TNothing then Val (None, h) else Stuck
    end).
Proof. intros E. cbn [run_fun]. rewrite E. reflexivity. Qed.
Lemma run_expr N d fd vs h e : f_body fd = BExpr e -> RUN_FUN (S N) (S d) fd vs h = EVAL N d (bind_params (f_params fd) vs) h e.
Proof. intros E. cbn [run_fun]. rewrite E. reflexivity. Qed.

Notation GOAL h f rho' run := (exists N0 x, ends_as h f rho' x /\ forall N, (N0 <= N)%nat -> run N = x).
Tactic Notation "stepN" simple_intropattern(N) simple_intropattern(HN) := intros [|N] HN; [lia|].

Lemma exec_does d h :
  (forall rho st f rho', does rho st f rho' -> forall r, holds rho r -> GOAL h f rho' (fun N => EXEC N d r h st)) /\
  (forall rho l f rho', does_list rho l f rho' -> forall r, holds rho r -> GOAL h f rho' (fun N => EXEC_LIST N d r h l)) /\
  (forall rho bs f rho', does_if rho bs f rho' -> forall r, holds rho r -> GOAL h f rho' (fun N => EXEC_IF N d r h bs)).
Proof.
  apply (does_mut
    (fun rho st f rho' _ => forall r, holds rho r -> GOAL h f rho' (fun N => EXEC N d r h st))
    (fun rho l f rho' _ => forall r, holds rho r -> GOAL h f rho' (fun N => EXEC_LIST N d r h l))
    (fun rho bs f rho' _ => forall r, holds rho r -> GOAL h f rho' (fun N => EXEC_IF N d r h bs))).
  - intros rho e v Hm r Hr. exists (S (height e)). eexists. split; [|stepN N HN; rewrite exec_return, (eval_val rho r h d e v N Hr Hm ltac:(lia)); reflexivity].
    cbn [ends_as option_map]. eexists. reflexivity.
  - intros rho r Hr. exists 1%nat, (Val (OReturn None, r, h)). split; [|stepN N HN; reflexivity]. cbn [ends_as option_map]. eexists. reflexivity.
  - intros rho e Hm r Hr. exists (S (height e)), DivZero. split; [|stepN N HN; rewrite exec_return, (eval_div rho r h d e N Hr Hm ltac:(lia)); reflexivity].
    reflexivity.
  - intros rho x t e v Hm r Hr. exists (S (height e)). eexists. split; [|stepN N HN; rewrite exec_das, (eval_val rho r h d e v N Hr Hm ltac:(lia)); reflexivity].
    cbn [ends_as]. eexists. split; [reflexivity|]. apply holds_upd; [eapply meaning_range; eauto|exact Hr].
  - intros rho x t e Hm r Hr. exists (S (height e)), DivZero. split; [|stepN N HN; rewrite exec_das, (eval_div rho r h d e N Hr Hm ltac:(lia)); reflexivity].
    reflexivity.
  - intros rho x t e v Hm r Hr. exists (S (height e)). eexists. split; [|stepN N HN; rewrite exec_as, (eval_val rho r h d e v N Hr Hm ltac:(lia)); reflexivity].
    cbn [ends_as]. eexists. split; [reflexivity|]. apply holds_upd; [eapply meaning_range; eauto|exact Hr].
  - intros rho x t e Hm r Hr. exists (S (height e)), DivZero. split; [|stepN N HN; rewrite exec_as, (eval_div rho r h d e N Hr Hm ltac:(lia)); reflexivity].
    reflexivity.
  - intros rho e v Hm r Hr. exists (S (height e)). eexists. split; [|stepN N HN; rewrite exec_expr, (eval_val rho r h d e v N Hr Hm ltac:(lia)); reflexivity].
    cbn [ends_as]. eexists. split; [reflexivity|exact Hr].
  - intros rho e Hm r Hr. exists (S (height e)), DivZero. split; [|stepN N HN; rewrite exec_expr, (eval_div rho r h d e N Hr Hm ltac:(lia)); reflexivity].
    reflexivity.
  - intros rho b f rho' _ IH r Hr. destruct (IH r Hr) as (N0 & x & Hx & H0). exists (S N0), x. split; [exact Hx|]. stepN N HN. apply (H0 N). lia.
  - intros rho b f rho' _ IH r Hr. destruct (IH r Hr) as (N0 & x & Hx & H0). exists (S N0), x. split; [exact Hx|]. stepN N HN. apply (H0 N). lia.
  - intros rho c b Hm r Hr. exists (S (height c)). eexists. split; [|stepN N HN; rewrite exec_while, (eval_val rho r h d c _ N Hr Hm ltac:(lia)); cbn [need bind]; rewrite as_bool_word; reflexivity].
    cbn [ends_as]. eexists. split; [reflexivity|exact Hr].
  - intros rho c b Hm r Hr. exists (S (height c)), DivZero. split; [|stepN N HN; rewrite exec_while, (eval_div rho r h d c N Hr Hm ltac:(lia)); reflexivity].
    reflexivity.
  - intros rho c b rho1 f rho2 Hm _ IHb _ IHw r Hr. destruct (IHb r Hr) as (N1 & x & (r1 & -> & Hr1) & H1).
    destruct (IHw r1 Hr1) as (N2 & y & Hy & H2). exists (S (height c + N1 + N2)), y. split; [exact Hy|]. stepN N HN.
    rewrite exec_while, (eval_val rho r h d c _ N Hr Hm ltac:(lia)). cbn [need bind]. rewrite as_bool_word, H1 by lia. cbn [bind]. apply H2. lia.
  - intros rho c b f rho1 Hm _ IHb Hf r Hr. destruct (IHb r Hr) as (N1 & x & Hx & H1). exists (S (height c + N1)), x. split; [exact Hx|]. stepN N HN.
    rewrite exec_while, (eval_val rho r h d c _ N Hr Hm ltac:(lia)). cbn [need bind]. rewrite as_bool_word, H1 by lia.
    destruct f; cbn [ends_as] in Hx; [now elim Hf| |now subst x]. destruct Hx as [r' ->]. reflexivity.
  - intros rho r Hr. exists 1%nat, (Val (ONormal, r, h)). split; [|stepN N HN; reflexivity]. cbn [ends_as]. eexists. split; [reflexivity|exact Hr].
  - intros rho st l rho1 f rho2 _ IHb _ IHw r Hr. destruct (IHb r Hr) as (N1 & x & (r1 & -> & Hr1) & H1).
    destruct (IHw r1 Hr1) as (N2 & y & Hy & H2). exists (S (N1 + N2)), y. split; [exact Hy|]. stepN N HN.
    rewrite exec_cons, H1 by lia. cbn [bind]. apply H2. lia.
  - intros rho st l f rho1 _ IHb Hf r Hr. destruct (IHb r Hr) as (N1 & x & Hx & H1). exists (S N1), x. split; [exact Hx|]. stepN N HN.
    rewrite exec_cons, H1 by lia. destruct f; cbn [ends_as] in Hx; [now elim Hf| |now subst x]. destruct Hx as [r' ->]. reflexivity.
  - intros rho r Hr. exists 1%nat, (Val (ONormal, r, h)). split; [|stepN N HN; reflexivity]. cbn [ends_as]. eexists. split; [reflexivity|exact Hr].
  - intros rho b f rho' _ IH r Hr. destruct (IH r Hr) as (N0 & x & Hx & H0). exists (S N0), x. split; [exact Hx|]. stepN N HN. apply (H0 N). lia.
  - intros rho c b rest f rho' Hm _ IH r Hr. destruct (IH r Hr) as (N0 & x & Hx & H0). exists (S (height c + N0)), x. split; [exact Hx|]. stepN N HN.
    rewrite exec_branch, (eval_val rho r h d c _ N Hr Hm ltac:(lia)). cbn [need bind]. rewrite as_bool_word. apply H0. lia.
  - intros rho c b rest f rho' Hm _ IH r Hr. destruct (IH r Hr) as (N0 & x & Hx & H0). exists (S (height c + N0)), x. split; [exact Hx|]. stepN N HN.
    rewrite exec_branch, (eval_val rho r h d c _ N Hr Hm ltac:(lia)). cbn [need bind]. rewrite as_bool_word. apply H0. lia.
  - intros rho c b rest Hm r Hr. exists (S (height c)), DivZero. split; [|stepN N HN; rewrite exec_branch, (eval_div rho r h d c N Hr Hm ltac:(lia)); reflexivity].
    reflexivity.
Qed.

Lemma run_returns d h rho fd vs x : returns rho fd x -> holds rho (bind_params (f_params fd) vs) ->
  exists N, RUN_FUN N (S d) fd vs h = match x with Some v => Val (option_map word_of v, h) | None => DivZero end.
Proof.
  intros H Hr. destruct H as [e v E Hm|e E Hm|l v rho' E Hd|l rho' E Hd Ht|l rho' E Hd].
  - exists (S (height e)). rewrite (run_expr _ _ _ _ _ _ E). now apply eval_val with (rho := rho).
  - exists (S (height e)). rewrite (run_expr _ _ _ _ _ _ E). now apply eval_div with (rho := rho).
  - destruct (proj1 (proj2 (exec_does d h)) _ _ _ _ Hd _ Hr) as (N & y & [r' ->] & HN). exists (S N).
    rewrite (run_block _ _ _ _ _ _ E), HN by lia. reflexivity.
  - destruct (proj1 (proj2 (exec_does d h)) _ _ _ _ Hd _ Hr) as (N & y & (r' & -> & _) & HN). exists (S N).
    rewrite (run_block _ _ _ _ _ _ E), HN by lia. rewrite Ht. reflexivity.
  - destruct (proj1 (proj2 (exec_does d h)) _ _ _ _ Hd _ Hr) as (N & y & -> & HN). exists (S N).
    rewrite (run_block _ _ _ _ _ _ E), HN by lia. reflexivity.
Qed.
End Exec.
