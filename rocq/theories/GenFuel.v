(** The interpreter of GenSpec: a larger budget does not change a result, and a result
    depends only on the variables that occur. *)
From Coq Require Import ZArith List Bool String Lia.
From Verif Require Import Ints X86 GenModel GenSpec.
Import ListNotations.
Open Scope Z_scope.

Definition leq {A} (a b : res A) : Prop := a = NoFuel \/ a = b.

Lemma leq_refl {A} (a : res A) : leq a a.
Proof. right. reflexivity. Qed.
Lemma leq_nofuel {A} (a : res A) : leq NoFuel a.
Proof. left. reflexivity. Qed.
Lemma leq_bind {A B} (a b : res A) (f g : A -> res B) : leq a b -> (forall x, leq (f x) (g x)) -> leq (bind a f) (bind b g).
Proof.
  intros [-> | ->] H; [left; reflexivity|]. destruct b; cbn [bind]; try apply leq_refl. apply H.
Qed.
Lemma leq_need {A} (a b : res (option Z * memory)) (f g : Z -> memory -> res A) :
  leq a b -> (forall x h, leq (f x h) (g x h)) -> leq (need a f) (need b g).
Proof. intros H K. apply leq_bind; [exact H|]. intros [[v|] h]; [apply K|apply leq_refl]. Qed.

Section Fuel.
Variable heap : Z -> bool.
Variable lit : list Z -> Z.
Variable fun_addr : string -> Z.
Variable fun_at : Z -> option string.
Variable extern abstract : string -> list (option Z) -> memory -> option (option Z * memory).
Variable alloc : string.
Variable prog : list fundef.
Notation EVAL := (eval heap lit fun_addr fun_at extern abstract alloc prog).
Notation EVAL_ADDR := (eval_addr heap lit fun_addr fun_at extern abstract alloc prog).
Notation EVAL_ARGS := (eval_args heap lit fun_addr fun_at extern abstract alloc prog).
Notation APPLY := (apply heap lit fun_addr fun_at extern abstract alloc prog).
Notation CALL_PTR := (call_ptr heap lit fun_addr fun_at extern abstract alloc prog).
Notation CALL_FUN := (call_fun heap lit fun_addr fun_at extern abstract alloc prog).
Notation RUN_FUN := (run_fun heap lit fun_addr fun_at extern abstract alloc prog).
Notation EXEC := (exec_stmt heap lit fun_addr fun_at extern abstract alloc prog).
Notation EXEC_LIST := (exec_list heap lit fun_addr fun_at extern abstract alloc prog).
Notation EXEC_IF := (exec_if heap lit fun_addr fun_at extern abstract alloc prog).

(** One step of each function. *)
Lemma eval_step (n d : nat) (r : env) (h : memory) (e : expr) : EVAL (S n) d r h e =
    let int2 l rt k := need (EVAL n d r h l) (fun a h => need (EVAL n d r h rt) (fun b h => k (ival a) (ival b) h)) in
    match e with
    | ELitInt _ z => Val (Some (wint z), h)
    | ELitBool _ b => Val (Some (wbool b), h)
    | ELitStr _ s => Val (Some (lit s), h)
    | ELogic _ op l rt =>
        need (EVAL n d r h l) (fun a h => need (EVAL n d r h rt) (fun b h =>
          match as_bool a, as_bool b with
          | Some x, Some y => Val (Some (wbool (sem_logic op x y)), h)
          | _, _ => Stuck
          end))
    | EArith _ op l rt =>
        int2 l rt (fun a b h =>
          match sem_arith op a b with Some c => Val (Some (wint c), h) | None => DivZero end)
    | ENot _ e =>
        need (EVAL n d r h e) (fun a h =>
          match as_bool a with Some x => Val (Some (wbool (negb x)), h) | None => Stuck end)
    | EBNot _ e => need (EVAL n d r h e) (fun a h => Val (Some (wint (inot (ival a))), h))
    | ENeg _ e => need (EVAL n d r h e) (fun a h => Val (Some (wint (ineg (ival a))), h))
    | ECmp _ op l rt => int2 l rt (fun a b h => Val (Some (wbool (sem_cmp op a b)), h))
    | EShift _ op l rt => int2 l rt (fun a b h => Val (Some (wint (sem_shift op a b)), h))
    | EVar _ x => match r x with Some v => Val (Some v, h) | None => Stuck end
    | EFun _ f ext => Val (Some (if ext then 0 else fun_addr f), h)
    | EOff _ z => Val (Some (word z), h)
    | ECond _ c a b =>
        need (EVAL n d r h c) (fun w h =>
          match as_bool w with
          | Some x => EVAL n d r h (if x then a else b)
          | None => Stuck
          end)
    | EArrayLit _ e => EVAL n d r h e
    | ECall _ fi f args =>
        bind (EVAL_ARGS n d r h args) (fun '(vs, h) => APPLY n d fi f args vs h)
    | ECallVar _ fi x args =>
        bind (EVAL_ARGS n d r h args) (fun '(vs, h) =>
          match r x with
          | None => Stuck
          | Some w => CALL_PTR n d fi w vs h
          end)
    | ECallExpr _ fi e args =>
        need (EVAL n d r h e) (fun w h =>
          bind (EVAL_ARGS n d r h args) (fun '(vs, h) => CALL_PTR n d fi w vs h))
    | EDot _ _ _ | EIndex _ _ _ =>
        bind (EVAL_ADDR n d r h e) (fun '(a, h) =>
          if ok8 heap a then Val (Some (load h a), h) else Stuck)
    | EType _ => Val (None, h)
    end.
Proof. reflexivity. Qed.

Lemma eval_addr_step (n d : nat) (r : env) (h : memory) (e : expr) : EVAL_ADDR (S n) d r h e =
    match e with
    | EDot _ l f =>
        need (EVAL n d r h l) (fun a h => need (EVAL n d r h f) (fun b h => Val (word (a + b), h)))
    | EIndex _ a i =>
        need (EVAL n d r h a) (fun a h => need (EVAL n d r h i) (fun i h =>
          if ok8 heap a then
            let len := ival (load h a) in
            if len <? 0 then Stuck
            else if (0 <=? ival i) && (ival i <? len) then Val (word (a + 8 * ival i + 8), h)
            else Ioob (ival i) a h
          else Stuck))
    | _ => Stuck
    end.
Proof. reflexivity. Qed.

Lemma eval_args_step (n d : nat) (r : env) (h : memory) (args : list expr) : EVAL_ARGS (S n) d r h args =
    match args with
    | [] => Val ([], h)
    | a :: rest =>
        bind (EVAL n d r h a) (fun '(v, h) =>
          bind (EVAL_ARGS n d r h rest) (fun '(vs, h) => Val (v :: vs, h)))
    end.
Proof. reflexivity. Qed.

Lemma apply_step (n d : nat) (fi : fninfo) (f : string) (args : list expr) (vs : list value) (h : memory) : APPLY (S n) d fi f args vs h =
    if fi_external fi then
      let vs := if fi_raw fi then raw_args args vs else vs in
      match extern f vs h with
      | None => Stuck
      | Some (v, h) =>
        if fi_raw fi && kind_eqb (fi_ret fi) TInteger
        then Val (option_map wint v, h) else Val (v, h)
      end
    else CALL_FUN n d f vs h.
Proof. reflexivity. Qed.

Lemma call_ptr_step (n d : nat) (fi : fninfo) (w : Z) (vs : list value) (h : memory) : CALL_PTR (S n) d fi w vs h =
    match fun_at w with
    | None => Stuck
    | Some f =>
      match find_fun prog f with
      | None => Stuck
      | Some _ => if fi_external fi then Stuck else CALL_FUN n d f vs h
      end
    end.
Proof. reflexivity. Qed.

Lemma call_fun_step (n d : nat) (f : string) (vs : list value) (h : memory) : CALL_FUN (S n) d f vs h =
    match find_fun prog f with
    | None => match abstract f vs h with Some r => Val r | None => Stuck end
    | Some fd =>
      if f_extret fd then Stuck else RUN_FUN n d fd vs h
    end.
Proof. reflexivity. Qed.

Lemma run_fun_step (n d : nat) (fd : fundef) (vs : list value) (h : memory) : RUN_FUN (S n) (S d) fd vs h =
    let r := bind_params (f_params fd) vs in
    match f_body fd with
    | BExpr e => EVAL n d r h e
    | BBlock b =>
        bind (EXEC_LIST n d r h b) (fun '(o, _, h) =>
          match o with
          | OReturn v => Val (v, h)
          | ONormal => if kind_eqb (f_ret fd) TNothing then Val (None, h) else Stuck
          end)
    | BCons tag id descr =>
        need (CALL_FUN n d alloc [Some (wint (object_size (List.length (f_params fd)) tag));
                                Some (lit descr); Some (wint id)] h) (fun p h =>
          bind (set_fields heap (object_fields tag (take_args (List.length (f_params fd)) vs)) p h) (fun h =>
            Val (Some p, h)))
    end.
Proof. reflexivity. Qed.

Lemma exec_stmt_step (n d : nat) (r : env) (h : memory) (st : stmt) : EXEC (S n) d r h st =
    match st with
    | SReturn None => Val (OReturn None, r, h)
    | SReturn (Some e) => bind (EVAL n d r h e) (fun '(v, h) => Val (OReturn v, r, h))
    | SIf bs => EXEC_IF n d r h bs
    | SDas x _ e => need (EVAL n d r h e) (fun v h => Val (ONormal, env_set r x v, h))
    | SAs (EVar _ x) e => need (EVAL n d r h e) (fun v h => Val (ONormal, env_set r x v, h))
    | SAs lhs e =>
        need (EVAL n d r h e) (fun v h =>
          bind (EVAL_ADDR n d r h lhs) (fun '(a, h) =>
            if ok8 heap a then Val (ONormal, r, store h a v) else Stuck))
    | SWhile c b =>
        need (EVAL n d r h c) (fun w h =>
          match as_bool w with
          | None => Stuck
          | Some false => Val (ONormal, r, h)
          | Some true =>
            bind (EXEC_LIST n d r h b) (fun '(o, r, h) =>
              match o with
              | ONormal => EXEC n d r h (SWhile c b)
              | OReturn v => Val (OReturn v, r, h)
              end)
          end)
    | SBlock b => EXEC_LIST n d r h b
    | SExpr e => bind (EVAL n d r h e) (fun '(_, h) => Val (ONormal, r, h))
    end.
Proof. reflexivity. Qed.

Lemma exec_list_step (n d : nat) (r : env) (h : memory) (l : list stmt) : EXEC_LIST (S n) d r h l =
    match l with
    | [] => Val (ONormal, r, h)
    | st :: rest =>
        bind (EXEC n d r h st) (fun '(o, r, h) =>
          match o with
          | ONormal => EXEC_LIST n d r h rest
          | OReturn v => Val (OReturn v, r, h)
          end)
    end.
Proof. reflexivity. Qed.

Lemma exec_if_step (n d : nat) (r : env) (h : memory) (bs : list (option expr * list stmt)) : EXEC_IF (S n) d r h bs =
    match bs with
    | [] => Val (ONormal, r, h)
    | [(None, b)] => EXEC_LIST n d r h b
    | (None, _) :: _ => Stuck
    | (Some c, b) :: rest =>
        need (EVAL n d r h c) (fun w h =>
          match as_bool w with
          | None => Stuck
          | Some true => EXEC_LIST n d r h b
          | Some false => EXEC_IF n d r h rest
          end)
    end.
Proof. reflexivity. Qed.

Ltac step := first
  [ apply leq_refl | apply leq_nofuel
  | apply leq_bind; [|intros] | apply leq_need; [|intros]
  | match goal with x : (_ * _)%type |- _ => destruct x end
  | match goal with |- leq (match ?x with _ => _ end) (match ?x with _ => _ end) => destruct x end
  | solve [eauto] ].

Lemma more : forall n d n' d', (n <= n')%nat -> (d <= d')%nat ->
  (forall r h e, leq (EVAL n d r h e) (EVAL n' d' r h e)) /\
  (forall r h e, leq (EVAL_ADDR n d r h e) (EVAL_ADDR n' d' r h e)) /\
  (forall r h l, leq (EVAL_ARGS n d r h l) (EVAL_ARGS n' d' r h l)) /\
  (forall fi f args vs h, leq (APPLY n d fi f args vs h) (APPLY n' d' fi f args vs h)) /\
  (forall fi w vs h, leq (CALL_PTR n d fi w vs h) (CALL_PTR n' d' fi w vs h)) /\
  (forall f vs h, leq (CALL_FUN n d f vs h) (CALL_FUN n' d' f vs h)) /\
  (forall fd vs h, leq (RUN_FUN n d fd vs h) (RUN_FUN n' d' fd vs h)) /\
  (forall r h st, leq (EXEC n d r h st) (EXEC n' d' r h st)) /\
  (forall r h l, leq (EXEC_LIST n d r h l) (EXEC_LIST n' d' r h l)) /\
  (forall r h bs, leq (EXEC_IF n d r h bs) (EXEC_IF n' d' r h bs)).
Proof.
  induction n as [|n IH]; intros d n' d' Hn Hd; [repeat split; intros; apply leq_nofuel|].
  destruct n' as [|n']; [lia|].
  assert (Hn' : (n <= n')%nat) by lia.
  destruct (IH d n' d' Hn' Hd) as (I1 & I2 & I3 & I4 & I5 & I6 & I7 & I8 & I9 & I10).
  repeat split.
  - intros r h e. destruct e; cbn [eval]; repeat step.
  - intros r h e. destruct e; cbn [eval_addr]; repeat step.
  - intros r h l. destruct l; cbn [eval_args]; repeat step.
  - intros. cbn [apply]. repeat step.
  - intros. cbn [call_ptr]. repeat step.
  - intros. cbn [call_fun]. repeat step.
  - intros fd vs h. destruct d as [|d]; [apply leq_nofuel|]. destruct d' as [|d']; [lia|].
    assert (Hd' : (d <= d')%nat) by lia.
    destruct (IH d n' d' Hn' Hd') as (J1 & J2 & J3 & J4 & J5 & J6 & J7 & J8 & J9 & J10).
    cbn [run_fun]. clear I1 I2 I3 I4 I5 I6 I7 I8 I9 I10 IH. repeat step.
  - intros r h st. destruct st as [o|bs|x t e|lhs e|c b|b|e]; cbn [exec_stmt]; try (repeat step).
  - intros r h l. destruct l; cbn [exec_list]; repeat step.
  - intros r h bs. destruct bs as [|[[c|] b] rest]; cbn [exec_if]; repeat step.
Qed.

(** The same, one function at a time. *)
Lemma eval_more n d n' d' r h e v : (n <= n')%nat -> (d <= d')%nat -> v <> NoFuel -> EVAL n d r h e = v -> EVAL n' d' r h e = v.
Proof. intros Hn Hd V E. destruct (more n d n' d' Hn Hd) as [H _]. destruct (H r h e); congruence. Qed.
Lemma exec_more n d n' d' r h st v : (n <= n')%nat -> (d <= d')%nat -> v <> NoFuel -> EXEC n d r h st = v -> EXEC n' d' r h st = v.
Proof.
  intros Hn Hd V E. destruct (more n d n' d' Hn Hd) as (_ & _ & _ & _ & _ & _ & _ & H & _). destruct (H r h st); congruence.
Qed.
Lemma list_more n d n' d' r h l v : (n <= n')%nat -> (d <= d')%nat -> v <> NoFuel -> EXEC_LIST n d r h l = v -> EXEC_LIST n' d' r h l = v.
Proof.
  intros Hn Hd V E. destruct (more n d n' d' Hn Hd) as (_ & _ & _ & _ & _ & _ & _ & _ & H & _). destruct (H r h l); congruence.
Qed.
Lemma if_more n d n' d' r h bs v : (n <= n')%nat -> (d <= d')%nat -> v <> NoFuel -> EXEC_IF n d r h bs = v -> EXEC_IF n' d' r h bs = v.
Proof.
  intros Hn Hd V E. destruct (more n d n' d' Hn Hd) as (_ & _ & _ & _ & _ & _ & _ & _ & _ & H). destruct (H r h bs); congruence.
Qed.

(* ------------------------------------------------------------------------ variables *)

Section Occurs.
Variable x : nat.
(** The variable occurs in the expression. *)
Fixpoint reads (e : expr) {struct e} : bool :=
  let fix any (l : list expr) : bool := match l with [] => false | a :: r => reads a || any r end in
  match e with
  | EVar _ y => Nat.eqb x y
  | ELogic _ _ l r | EArith _ _ l r | ECmp _ _ l r | EShift _ _ l r | EDot _ l r | EIndex _ l r => reads l || reads r
  | ENot _ a | EBNot _ a | ENeg _ a | EArrayLit _ a => reads a
  | ECond _ c a b => reads c || reads a || reads b
  | ECall _ _ _ args => any args
  | ECallVar _ _ y args => Nat.eqb x y || any args
  | ECallExpr _ _ f args => reads f || any args
  | _ => false
  end.
Fixpoint reads_any (l : list expr) : bool := match l with [] => false | a :: r => reads a || reads_any r end.

(** The variable occurs in the statement; the statement assigns it. *)
Fixpoint uses (st : stmt) {struct st} : bool :=
  let fix any (l : list stmt) : bool := match l with [] => false | a :: r => uses a || any r end in
  let fix branches (bs : list (option expr * list stmt)) : bool :=
    match bs with
    | [] => false
    | (c, b) :: r => match c with Some e => reads e | None => false end || any b || branches r
    end in
  match st with
  | SReturn (Some e) => reads e
  | SReturn None => false
  | SIf bs => branches bs
  | SDas y _ e => Nat.eqb x y || reads e
  | SAs l e => reads l || reads e
  | SWhile c b => reads c || any b
  | SBlock b => any b
  | SExpr e => reads e
  end.
Fixpoint uses_any (l : list stmt) : bool := match l with [] => false | a :: r => uses a || uses_any r end.
Fixpoint uses_branches (bs : list (option expr * list stmt)) : bool :=
  match bs with
  | [] => false
  | (c, b) :: r => match c with Some e => reads e | None => false end || uses_any b || uses_branches r
  end.
Fixpoint assigns (st : stmt) {struct st} : bool :=
  let fix any (l : list stmt) : bool := match l with [] => false | a :: r => assigns a || any r end in
  let fix branches (bs : list (option expr * list stmt)) : bool :=
    match bs with [] => false | (_, b) :: r => any b || branches r end in
  match st with
  | SIf bs => branches bs
  | SDas y _ _ => Nat.eqb x y
  | SAs (EVar _ y) _ => Nat.eqb x y
  | SWhile _ b => any b
  | SBlock b => any b
  | _ => false
  end.
Fixpoint assigns_any (l : list stmt) : bool := match l with [] => false | a :: r => assigns a || assigns_any r end.
Fixpoint assigns_branches (bs : list (option expr * list stmt)) : bool :=
  match bs with [] => false | (_, b) :: r => assigns_any b || assigns_branches r end.

End Occurs.

(** Environments that differ at most at [x]; results that do. *)
Definition off (x : nat) (r r' : nat -> option Z) : Prop := forall y, y <> x -> r y = r' y.
Definition off_res (x : nat) (a b : res (outcome * (nat -> option Z) * memory)) : Prop :=
  match a, b with
  | Val (o, r, h), Val (o', r', h') => o = o' /\ h = h' /\ off x r r'
  | Val _, _ | _, Val _ => False
  | Ioob i a h, Ioob i' a' h' => i = i' /\ a = a' /\ h = h'
  | DivZero, DivZero | Stuck, Stuck | NoFuel, NoFuel => True
  | _, _ => False
  end.

Lemma off_set x r r' y v : off x r r' -> off x (env_set r y v) (env_set r' y v).
Proof. intros H z Hz. unfold env_set. destruct (Nat.eqb y z); [reflexivity|apply H, Hz]. Qed.
Lemma off_sym x r r' : off x r r' -> off x r' r.
Proof. intros H y Hy. symmetry. apply H, Hy. Qed.
Lemma off_own x r v : off x r (env_set r x v).
Proof. intros y Hy. unfold env_set. destruct (Nat.eqb_spec x y); congruence. Qed.
Lemma off_res_bind {A} x (a : res A) f g : (forall y, off_res x (f y) (g y)) -> off_res x (bind a f) (bind a g).
Proof. intros H. destruct a; cbn; auto. Qed.
Lemma off_res_need x (a : res (option Z * memory)) f g : (forall v h, off_res x (f v h) (g v h)) -> off_res x (need a f) (need a g).
Proof. intros H. apply off_res_bind. intros [[v|] h]; [apply H|exact I]. Qed.
Lemma off_res_seq x a b f g : off_res x a b ->
  (forall o r r' h, off x r r' -> off_res x (f (o, r, h)) (g (o, r', h))) -> off_res x (bind a f) (bind b g).
Proof.
  intros H K. destruct a as [[[o r] h]| | | |], b as [[[o' r'] h']| | | |]; cbn in H |- *; try contradiction; auto.
  destruct H as (-> & -> & H). apply K, H.
Qed.

Lemma bind_same {A B} (a : res A) (f g : A -> res B) : (forall x, f x = g x) -> bind a f = bind a g.
Proof. intros H. destruct a; cbn; auto. Qed.
Lemma need_same {A} (a : res (option Z * memory)) (f g : Z -> memory -> res A) : (forall x h, f x h = g x h) -> need a f = need a g.
Proof. intros H. apply bind_same. intros [[v|] h]; auto. Qed.

Ltac split_or := repeat match goal with H : _ || _ = false |- _ => apply orb_false_iff in H; destruct H end.

Lemma eval_off x r r' : off x r r' -> forall n d h,
  (forall e, reads x e = false -> EVAL n d r h e = EVAL n d r' h e) /\
  (forall e, reads x e = false -> EVAL_ADDR n d r h e = EVAL_ADDR n d r' h e) /\
  (forall l, reads_any x l = false -> EVAL_ARGS n d r h l = EVAL_ARGS n d r' h l).
Proof.
  intros O. induction n as [|n IH]; intros d h; [repeat split; reflexivity|].
  assert (I1 := fun h => proj1 (IH d h)). assert (I2 := fun h => proj1 (proj2 (IH d h))).
  assert (I3 := fun h => proj2 (proj2 (IH d h))). clear IH.
  assert (Var : forall y, Nat.eqb x y = false -> r y = r' y).
  { intros y Hy. apply O. intros ->. rewrite Nat.eqb_refl in Hy. discriminate. }
  Ltac same := repeat first
    [ reflexivity
    | apply need_same; intros | apply bind_same; intros
    | match goal with y : (_ * _)%type |- _ => destruct y end
    | match goal with |- match ?y with _ => _ end = match ?y with _ => _ end => destruct y end
    | match goal with I : forall h e, reads ?x e = false -> _ |- _ => rewrite I by assumption end
    | match goal with I : forall h l, reads_any ?x l = false -> _ |- _ => rewrite I by assumption end ].
  repeat split.
  - intros e R. destruct e; cbn [reads] in R; fold (reads_any x) in R; split_or; rewrite !eval_step; cbv zeta beta;
      try rewrite (Var _ ltac:(eassumption)); same.
    + destruct b; auto.
    + rewrite (I2 h (EDot t e1 e2)) by (cbn [reads]; apply orb_false_iff; auto). reflexivity.
    + rewrite (I2 h (EIndex t e1 e2)) by (cbn [reads]; apply orb_false_iff; auto). reflexivity.
  - intros e R. destruct e; cbn [reads] in R; fold (reads_any x) in R; split_or; rewrite !eval_addr_step; same.
  - intros l R. destruct l; cbn [reads_any] in R; split_or; rewrite !eval_args_step; same.
Qed.

(** A statement behaves the same whatever the value of a variable it does not use. *)
Lemma exec_off x : forall n d r r' h, off x r r' ->
  (forall st, uses x st = false -> off_res x (EXEC n d r h st) (EXEC n d r' h st)) /\
  (forall l, uses_any x l = false -> off_res x (EXEC_LIST n d r h l) (EXEC_LIST n d r' h l)) /\
  (forall bs, uses_branches x bs = false -> off_res x (EXEC_IF n d r h bs) (EXEC_IF n d r' h bs)).
Proof.
  induction n as [|n IH]; intros d r r' h O; [repeat split; intros; exact I|].
  assert (E := fun h => eval_off x r r' O n d h).
  repeat split.
  - intros st U. rewrite !exec_stmt_step.
    destruct st as [[e|]|bs|y t e|lhs e|c b|b|e]; cbn [uses] in U; fold (uses_any x) (uses_branches x) in U; split_or.
    + rewrite (proj1 (E h)) by assumption. apply off_res_bind. intros [v h1]. cbn. auto.
    + cbn. auto.
    + exact (proj2 (proj2 (IH d r r' h O)) _ U).
    + rewrite (proj1 (E h)) by assumption. apply off_res_need. intros v h1. cbn. auto using off_set.
    + assert (G : off_res x (need (EVAL n d r h e) (fun v h => bind (EVAL_ADDR n d r h lhs) (fun '(a, h) => if ok8 heap a then Val (ONormal, r, store h a v) else Stuck)))
                         (need (EVAL n d r' h e) (fun v h => bind (EVAL_ADDR n d r' h lhs) (fun '(a, h) => if ok8 heap a then Val (ONormal, r', store h a v) else Stuck)))).
      { rewrite (proj1 (E h)) by assumption. apply off_res_need. intros v h1.
        rewrite (proj1 (proj2 (E h1))) by assumption. apply off_res_bind. intros [a h2].
        destruct (ok8 heap a); cbn; auto. }
      destruct lhs; try exact G. rewrite (proj1 (E h)) by assumption. apply off_res_need. intros v h1. cbn. auto using off_set.
    + rewrite (proj1 (E h)) by assumption. apply off_res_need. intros w h1.
      destruct (as_bool w) as [[|]|]; [|cbn; auto|exact I].
      eapply off_res_seq; [apply IH; [exact O|assumption]|].
      intros o r1 r1' h2 O1. destruct o; [|cbn; auto].
      apply IH; [exact O1|]. cbn [uses]. fold (uses_any x). apply orb_false_iff; auto.
    + exact (proj1 (proj2 (IH d r r' h O)) _ U).
    + rewrite (proj1 (E h)) by assumption. apply off_res_bind. intros [v h1]. cbn. auto.
  - intros l U. rewrite !exec_list_step. destruct l as [|st l]; [cbn; auto|].
    cbn [uses_any] in U. split_or. eapply off_res_seq; [apply IH; [exact O|assumption]|].
    intros o r1 r1' h2 O1. destruct o; [|cbn; auto]. apply IH; [exact O1|assumption].
  - intros bs U. rewrite !exec_if_step. destruct bs as [|[[c|] b] rest]; cbn [uses_branches] in U; split_or.
    + cbn; auto.
    + rewrite (proj1 (E h)) by assumption. apply off_res_need. intros w h1.
      destruct (as_bool w) as [[|]|]; [apply IH; assumption|apply IH; assumption|exact I].
    + destruct rest; [apply IH; assumption|exact I].
Qed.

(** A statement leaves variables it does not assign as they were. *)
Lemma exec_keeps x : forall n d r h,
  (forall st o r1 h1, assigns x st = false -> EXEC n d r h st = Val (o, r1, h1) -> r1 x = r x) /\
  (forall l o r1 h1, assigns_any x l = false -> EXEC_LIST n d r h l = Val (o, r1, h1) -> r1 x = r x) /\
  (forall bs o r1 h1, assigns_branches x bs = false -> EXEC_IF n d r h bs = Val (o, r1, h1) -> r1 x = r x).
Proof.
  assert (Bi : forall A B (a : res A) (f : A -> res B) v, bind a f = Val v -> exists y, a = Val y /\ f y = Val v).
  { intros A B [y| | | |] f v E; cbn in E; try discriminate. eauto. }
  assert (Ne : forall B (a : res (option Z * memory)) (f : Z -> memory -> res B) v, need a f = Val v -> exists y h, a = Val (Some y, h) /\ f y h = Val v).
  { intros B a f v E. apply Bi in E as [[[y|] h] [E1 E2]]; [|discriminate]. eauto. }
  assert (Set_ : forall r y v, Nat.eqb x y = false -> env_set r y v x = r x).
  { intros r y v H. unfold env_set. rewrite Nat.eqb_sym, H. reflexivity. }
  induction n as [|n IH]; intros d r h; [repeat split; intros; discriminate|].
  repeat split.
  - intros st o r1 h1 U E. rewrite exec_stmt_step in E.
    destruct st as [[e|]|bs|y t e|lhs e|c b|b|e]; cbn [assigns] in U; fold (assigns_any x) (assigns_branches x) in U; split_or.
    + apply Bi in E as [[v h2] [_ E]]. inversion E; reflexivity.
    + inversion E; reflexivity.
    + eapply (proj2 (proj2 (IH d r h))); eassumption.
    + apply Ne in E as [v [h2 [_ E]]]. inversion E; subst. apply Set_, U.
    + assert (G : need (EVAL n d r h e) (fun v h => bind (EVAL_ADDR n d r h lhs) (fun '(a, h) => if ok8 heap a then Val (ONormal, r, store h a v) else Stuck)) = Val (o, r1, h1) -> r1 x = r x).
      { intros F. apply Ne in F as [v [h2 [_ F]]]. apply Bi in F as [[a h3] [_ F]]. destruct (ok8 heap a); inversion F; reflexivity. }
      destruct lhs; try (apply G, E). apply Ne in E as [v [h2 [_ E]]]. inversion E; subst. apply Set_, U.
    + apply Ne in E as [w [h2 [_ E]]]. destruct (as_bool w) as [[|]|]; [|inversion E; reflexivity|discriminate].
      apply Bi in E as [[[o2 r2] h3] [E1 E2]]. apply (proj1 (proj2 (IH d r h2))) in E1; [|exact U].
      destruct o2; [|inversion E2; congruence]. apply (proj1 (IH d r2 h3)) in E2; [congruence|exact U].
    + eapply (proj1 (proj2 (IH d r h))); eassumption.
    + apply Bi in E as [[v h2] [_ E]]. inversion E; reflexivity.
  - intros l o r1 h1 U E. rewrite exec_list_step in E. destruct l as [|st l]; [inversion E; reflexivity|].
    cbn [assigns_any] in U. split_or. apply Bi in E as [[[o2 r2] h3] [E1 E2]].
    apply (proj1 (IH d r h)) in E1; [|assumption]. destruct o2; [|inversion E2; congruence].
    apply (proj1 (proj2 (IH d r2 h3))) in E2; [congruence|assumption].
  - intros bs o r1 h1 U E. rewrite exec_if_step in E. destruct bs as [|[[c|] b] rest]; cbn [assigns_branches] in U; split_or.
    + inversion E; reflexivity.
    + apply Ne in E as [w [h2 [_ E]]].
      destruct (as_bool w) as [[|]|]; [eapply (proj1 (proj2 (IH d r h2))); eassumption|eapply (proj2 (proj2 (IH d r h2))); eassumption|discriminate].
    + destruct rest; [eapply (proj1 (proj2 (IH d r h))); eassumption|discriminate].
Qed.
End Fuel.
