(** Runs of the interpreter of GenSpec without budgets. *)
From Coq Require Import ZArith List Bool String Lia.
From Verif Require Import Ints X86 GenModel GenSpec GenFuel LowerModel LowerSpec.
Import ListNotations.
Open Scope Z_scope.

(** Failures of a part are failures of the whole. *)
Definition lift {A B} (R : res A) : res B :=
  match R with Val _ => NoFuel | Ioob i a h => Ioob i a h | DivZero => DivZero | Stuck => Stuck | NoFuel => NoFuel end.
Definition fails {A} (R : res A) : Prop := match R with Val _ | NoFuel => False | _ => True end.

Definition monotone {A} (f : nat -> nat -> res A) : Prop := forall n d n' d', (n <= n')%nat -> (d <= d')%nat -> leq (f n d) (f n' d').

Lemma fin_unique {A} (f : nat -> nat -> res A) R R' : monotone f -> fin f R -> fin f R' -> R = R'.
Proof.
  intros M [H [n [d E]]] [H' [n' [d' E']]].
  destruct (M n d (Nat.max n n') (Nat.max d d')) as [X|X]; [lia|lia|congruence|].
  destruct (M n' d' (Nat.max n n') (Nat.max d d')) as [Y|Y]; [lia|lia|congruence|congruence].
Qed.

Lemma fin_ext {A} (f g : nat -> nat -> res A) R : (forall n d, f n d = g n d) -> fin f R <-> fin g R.
Proof. intros H. unfold fin. split; intros [N [n [d E]]]; split; auto; exists n, d; [rewrite <- H|rewrite H]; exact E. Qed.

Lemma fin_step {A} (f g : nat -> nat -> res A) R : (forall d, f O d = NoFuel) -> (forall n d, f (S n) d = g n d) -> fin f R <-> fin g R.
Proof.
  intros H0 HS. unfold fin. split; intros [N [n [d E]]]; split; auto.
  - destruct n as [|n]; [rewrite H0 in E; congruence|]. exists n, d. rewrite <- HS. exact E.
  - exists (S n), d. rewrite HS. exact E.
Qed.

Lemma fin_const {A} (v R : res A) : fin (fun _ _ => v) R <-> v <> NoFuel /\ R = v.
Proof.
  unfold fin. split; [intros [N [n [d E]]]; subst; auto|]. intros [N ->]. split; [exact N|]. exists O, O. reflexivity.
Qed.

Lemma fin_bind {A B} (a : nat -> nat -> res A) (k : A -> nat -> nat -> res B) R : monotone a -> (forall x, monotone (k x)) ->
  fin (fun n d => bind (a n d) (fun x => k x n d)) R <->
  (exists x, fin a (Val x) /\ fin (k x) R) \/ (exists E, fin a E /\ fails E /\ R = lift E).
Proof.
  intros M1 M2. split.
  - intros [N [n [d E]]]. destruct (a n d) as [x|i w h| | |] eqn:Ea; cbn in E.
    + left. exists x. split; [split; [discriminate|eauto]|split; [exact N|eauto]].
    + right. exists (Ioob i w h). split; [split; [discriminate|eauto]|split; [exact I|auto]].
    + right. exists DivZero. split; [split; [discriminate|eauto]|split; [exact I|auto]].
    + right. exists Stuck. split; [split; [discriminate|eauto]|split; [exact I|auto]].
    + congruence.
  - intros [[x [[N1 [n1 [d1 E1]]] [N2 [n2 [d2 E2]]]]]|[E [[N1 [n1 [d1 E1]]] [F ->]]]].
    + split; [exact N2|]. exists (Nat.max n1 n2), (Nat.max d1 d2).
      destruct (M1 n1 d1 (Nat.max n1 n2) (Nat.max d1 d2)) as [X|X]; [lia|lia|congruence|].
      destruct (M2 x n2 d2 (Nat.max n1 n2) (Nat.max d1 d2)) as [Y|Y]; [lia|lia|congruence|].
      rewrite <- X, E1. cbn. congruence.
    + split; [destruct E; cbn in *; try contradiction; discriminate|]. exists n1, d1. rewrite E1. destruct E; cbn in *; try contradiction; reflexivity.
Qed.

Lemma monotone_const {A} (v : res A) : monotone (fun _ _ => v).
Proof. intros n d n' d' _ _. apply leq_refl. Qed.
Lemma monotone_bind {A B} (a : nat -> nat -> res A) (k : A -> nat -> nat -> res B) : monotone a -> (forall x, monotone (k x)) ->
  monotone (fun n d => bind (a n d) (fun x => k x n d)).
Proof. intros M1 M2 n d n' d' Hn Hd. apply leq_bind; [apply M1; assumption|]. intros x. apply M2; assumption. Qed.

Section Fin.
Variable heap : Z -> bool.
Variable lit : list Z -> Z.
Variable fun_addr : string -> Z.
Variable fun_at : Z -> option string.
Variable extern abstract : string -> list (option Z) -> memory -> option (option Z * memory).
Variable alloc : string.
Variable prog : list fundef.
Notation EVAL := (eval heap lit fun_addr fun_at extern abstract alloc prog).
Notation EVAL_ADDR := (eval_addr heap lit fun_addr fun_at extern abstract alloc prog).
Notation EXEC := (exec_stmt heap lit fun_addr fun_at extern abstract alloc prog).
Notation EXEC_LIST := (exec_list heap lit fun_addr fun_at extern abstract alloc prog).
Notation EXEC_IF := (exec_if heap lit fun_addr fun_at extern abstract alloc prog).
Notation finE r h e := (fin (fun n d => EVAL n d r h e)).
Notation finA r h e := (fin (fun n d => EVAL_ADDR n d r h e)).
Notation finS r h s := (fin (fun n d => EXEC n d r h s)).
Notation finL r h l := (fin (fun n d => EXEC_LIST n d r h l)).
Notation finI r h l := (fin (fun n d => EXEC_IF n d r h l)).

Lemma monotone_eval r h e : monotone (fun n d => EVAL n d r h e).
Proof. intros n d n' d' Hn Hd. apply more; assumption. Qed.
Lemma monotone_addr r h e : monotone (fun n d => EVAL_ADDR n d r h e).
Proof. intros n d n' d' Hn Hd. apply more; assumption. Qed.
Lemma monotone_exec r h e : monotone (fun n d => EXEC n d r h e).
Proof. intros n d n' d' Hn Hd. apply more; assumption. Qed.
Lemma monotone_list r h e : monotone (fun n d => EXEC_LIST n d r h e).
Proof. intros n d n' d' Hn Hd. apply more; assumption. Qed.
Lemma monotone_if r h e : monotone (fun n d => EXEC_IF n d r h e).
Proof. intros n d n' d' Hn Hd. apply more; assumption. Qed.

(** An expression whose value is needed. *)
Definition wants {A} (r : nat -> option Z) (h : memory) (e : expr) (P : Z -> memory -> res A -> Prop) (R : res A) : Prop :=
  (exists v h1, finE r h e (Val (Some v, h1)) /\ P v h1 R) \/
  (exists h1, finE r h e (Val (None, h1)) /\ R = Stuck) \/
  (exists E, finE r h e E /\ fails E /\ R = lift E).

Lemma fin_need {A} r h e (k : Z -> memory -> nat -> nat -> res A) R : (forall v h, monotone (k v h)) ->
  fin (fun n d => need (EVAL n d r h e) (fun v h => k v h n d)) R <-> wants r h e (fun v h R => fin (k v h) R) R.
Proof.
  intros M. unfold need, wants.
  rewrite (fin_ext _ (fun n d => bind (EVAL n d r h e) (fun x => (fun x n d => match x with (Some w, h) => k w h n d | (None, h) => Stuck end) x n d))).
  2:{ intros n d. apply bind_same. intros [[w|] h1]; reflexivity. }
  rewrite fin_bind; [|apply monotone_eval|intros [[w|] h1]; [apply M|apply monotone_const]].
  split.
  - intros [[[[v|] h1] [F1 F2]]|F]; [left; eauto| |right; right; exact F].
    right. left. exists h1. split; [exact F1|]. apply fin_const in F2. apply F2.
  - intros [[v [h1 [F1 F2]]]|[[h1 [F1 ->]]|F]]; [left; exists (Some v, h1); auto| |right; exact F].
    left. exists (None, h1). split; [exact F1|]. apply fin_const. split; [discriminate|reflexivity].
Qed.

Lemma val_const {A} (v : A) R : fin (fun _ _ => Val v) R <-> R = Val v.
Proof. rewrite fin_const. split; [tauto|]. intros ->. split; [discriminate|reflexivity]. Qed.
Lemma stuck_const {A} R : fin (fun _ _ => @Stuck A) R <-> R = Stuck.
Proof. rewrite fin_const. split; [tauto|]. intros ->. split; [discriminate|reflexivity]. Qed.

(** After a statement: the rest if it ended normally. *)
Definition then_ (P : behaviour) (R1 R : result) : Prop :=
  match R1 with
  | Val (ONormal, r1, h1) => P r1 h1 R
  | Val (OReturn v, r1, h1) => R = R1
  | _ => fails R1 /\ R = R1
  end.

Lemma fin_seq (a : nat -> nat -> result) (k : (nat -> option Z) -> memory -> nat -> nat -> result) R : monotone a -> (forall r h, monotone (k r h)) ->
  fin (fun n d => bind (a n d) (fun '(o, r, h) => match o with ONormal => k r h n d | OReturn v => Val (OReturn v, r, h) end)) R <->
  exists R1, fin a R1 /\ then_ (fun r h R => fin (k r h) R) R1 R.
Proof.
  intros M1 M2.
  rewrite (fin_ext _ (fun n d => bind (a n d) (fun x => (fun x n d => match x with (ONormal, r, h) => k r h n d | (OReturn v, r, h) => Val (OReturn v, r, h) end) x n d))).
  2:{ intros n d. apply bind_same. intros [[[|v] r] h]; reflexivity. }
  rewrite fin_bind; [|exact M1|intros [[[|v] r] h]; [apply M2|apply monotone_const]].
  split.
  - intros [[[[[|v] r] h] [F1 F2]]|[E [F1 [F2 ->]]]].
    + exists (Val (ONormal, r, h)). auto.
    + exists (Val (OReturn v, r, h)). apply val_const in F2. auto.
    + exists E. split; [exact F1|]. destruct E; cbn in *; try contradiction; auto.
  - intros [[[[[|v] r] h]|i w h| | |] [F1 F2]]; cbn in F2.
    + left. exists (ONormal, r, h). auto.
    + left. exists (OReturn v, r, h). split; [exact F1|]. apply val_const, F2.
    + right. exists (Ioob i w h). destruct F2 as [F2 ->]. auto.
    + right. exists DivZero. destruct F2 as [F2 ->]. auto.
    + right. exists Stuck. destruct F2 as [F2 ->]. auto.
    + destruct F2 as [[] _].
Qed.

Lemma finL_nil r h R : finL r h [] R <-> R = Val (ONormal, r, h).
Proof. rewrite (fin_step _ (fun _ _ => Val (ONormal, r, h))) by reflexivity. apply val_const. Qed.
Lemma finL_cons r h s l R : finL r h (s :: l) R <-> exists R1, finS r h s R1 /\ then_ (fun r h R => finL r h l R) R1 R.
Proof.
  rewrite (fin_step _ (fun n d => bind (EXEC n d r h s) (fun '(o, r, h) => match o with ONormal => EXEC_LIST n d r h l | OReturn v => Val (OReturn v, r, h) end))) by reflexivity.
  apply (fin_seq (fun n d => EXEC n d r h s) (fun r h n d => EXEC_LIST n d r h l)); [apply monotone_exec|intros; apply monotone_list].
Qed.
Lemma finS_block r h l R : finS r h (SBlock l) R <-> finL r h l R.
Proof. apply fin_step; reflexivity. Qed.
Lemma finS_if r h bs R : finS r h (SIf bs) R <-> finI r h bs R.
Proof. apply fin_step; reflexivity. Qed.
Lemma finS_das r h x t e R : finS r h (SDas x t e) R <-> wants r h e (fun v h1 R => R = Val (ONormal, env_set r x v, h1)) R.
Proof.
  rewrite (fin_step _ (fun n d => need (EVAL n d r h e) (fun v h => (fun v h _ _ => Val (ONormal, env_set r x v, h)) v h n d))) by reflexivity.
  rewrite fin_need by (intros; apply monotone_const). unfold wants.
  setoid_rewrite val_const. reflexivity.
Qed.
Lemma finS_as_var r h x t e R : finS r h (SAs (EVar t x) e) R <-> wants r h e (fun v h1 R => R = Val (ONormal, env_set r x v, h1)) R.
Proof.
  rewrite (fin_step _ (fun n d => need (EVAL n d r h e) (fun v h => (fun v h _ _ => Val (ONormal, env_set r x v, h)) v h n d))) by reflexivity.
  rewrite fin_need by (intros; apply monotone_const). unfold wants.
  setoid_rewrite val_const. reflexivity.
Qed.
Lemma finS_while r h c b R : finS r h (SWhile c b) R <->
  wants r h c (fun w h1 R => match as_bool w with
    | None => R = Stuck
    | Some false => R = Val (ONormal, r, h1)
    | Some true => exists R1, finL r h1 b R1 /\ then_ (fun r h R => finS r h (SWhile c b) R) R1 R
    end) R.
Proof.
  rewrite (fin_step _ (fun n d => need (EVAL n d r h c) (fun w h => (fun w h n d =>
    match as_bool w with
    | None => Stuck
    | Some false => Val (ONormal, r, h)
    | Some true => bind (EXEC_LIST n d r h b) (fun '(o, r, h) => match o with ONormal => EXEC n d r h (SWhile c b) | OReturn v => Val (OReturn v, r, h) end)
    end) w h n d))) by reflexivity.
  assert (M : forall h, monotone (fun n d => bind (EXEC_LIST n d r h b) (fun '(o, r, h) => match o with ONormal => EXEC n d r h (SWhile c b) | OReturn v => Val (OReturn v, r, h) end))).
  { intros h1 n d n' d' Hn Hd. apply leq_bind; [apply monotone_list; assumption|]. intros [[[|v] r1] h2]; [apply monotone_exec; assumption|apply leq_refl]. }
  rewrite fin_need by (intros w h1; destruct (as_bool w) as [[|]|]; [apply M|apply monotone_const|apply monotone_const]).
  unfold wants. split; (intros [[w [h1 [F1 F2]]]|[F|F]]; [left; exists w, h1; split; [exact F1|]|right; left; exact F|right; right; exact F]).
  - destruct (as_bool w) as [[|]|]; [|apply val_const in F2; exact F2|apply stuck_const in F2; exact F2].
    apply (fin_seq (fun n d => EXEC_LIST n d r h1 b) (fun r h n d => EXEC n d r h (SWhile c b))) in F2; [exact F2|apply monotone_list|intros; apply monotone_exec].
  - destruct (as_bool w) as [[|]|]; [|apply val_const; exact F2|apply stuck_const; exact F2].
    apply (fin_seq (fun n d => EXEC_LIST n d r h1 b) (fun r h n d => EXEC n d r h (SWhile c b))); [apply monotone_list|intros; apply monotone_exec|exact F2].
Qed.
Lemma finI_nil r h R : finI r h [] R <-> R = Val (ONormal, r, h).
Proof. rewrite (fin_step _ (fun _ _ => Val (ONormal, r, h))) by reflexivity. apply val_const. Qed.
Lemma finI_cons r h c b rest R : finI r h ((Some c, b) :: rest) R <->
  wants r h c (fun w h1 R => match as_bool w with
    | None => R = Stuck | Some true => finL r h1 b R | Some false => finI r h1 rest R end) R.
Proof.
  rewrite (fin_step _ (fun n d => need (EVAL n d r h c) (fun w h => (fun w h n d =>
    match as_bool w with None => Stuck | Some true => EXEC_LIST n d r h b | Some false => EXEC_IF n d r h rest end) w h n d))) by reflexivity.
  rewrite fin_need by (intros w h1; destruct (as_bool w) as [[|]|]; [apply monotone_list|apply monotone_if|apply monotone_const]).
  unfold wants. split; (intros [[w [h1 [F1 F2]]]|[F|F]]; [left; exists w, h1; split; [exact F1|]|right; left; exact F|right; right; exact F]);
    destruct (as_bool w) as [[|]|]; auto; apply stuck_const; exact F2.
Qed.
Lemma finL_app r h l1 l2 R : finL r h (l1 ++ l2) R <-> exists R1, finL r h l1 R1 /\ then_ (fun r h R => finL r h l2 R) R1 R.
Proof.
  revert r h R. induction l1 as [|s l IH]; intros r h R; cbn [app].
  - split; [intros F; exists (Val (ONormal, r, h)); split; [apply finL_nil; reflexivity|exact F]|].
    intros [R1 [F1 F2]]. apply finL_nil in F1. subst. exact F2.
  - rewrite finL_cons. setoid_rewrite finL_cons. split.
    + intros [R1 [F1 F2]]. destruct R1 as [[[[|v] r1] h1]|i w h1| | |]; cbn in F2.
      * apply IH in F2 as [R2 [F2 F3]]. exists R2. split; [|exact F3]. exists (Val (ONormal, r1, h1)). auto.
      * subst. exists (Val (OReturn v, r1, h1)). split; [|reflexivity]. eexists. split; [exact F1|reflexivity].
      * destruct F2 as [X ->]. eexists. split; [eexists; split; [exact F1|split; [exact X|reflexivity]]|split; [exact X|reflexivity]].
      * destruct F2 as [X ->]. eexists. split; [eexists; split; [exact F1|split; [exact X|reflexivity]]|split; [exact X|reflexivity]].
      * destruct F2 as [X ->]. eexists. split; [eexists; split; [exact F1|split; [exact X|reflexivity]]|split; [exact X|reflexivity]].
      * destruct F2 as [[] _].
    + intros [R2 [[R1 [F1 F2]] F3]]. exists R1. split; [exact F1|].
      destruct R1 as [[[[|v] r1] h1]|i w h1| | |]; cbn in F2 |- *.
      * apply IH. eauto.
      * subst. exact F3.
      * destruct F2 as [X ->]. exact F3.
      * destruct F2 as [X ->]. exact F3.
      * destruct F2 as [X ->]. exact F3.
      * destruct F2 as [[] _].
Qed.
Lemma finL_one r h s R : finL r h [s] R <-> finS r h s R.
Proof.
  rewrite finL_cons. split.
  - intros [R1 [F1 F2]]. destruct R1 as [[[[|v] r1] h1]|i w h1| | |]; cbn in F2.
    + apply finL_nil in F2. subst. exact F1.
    + subst. exact F1.
    + destruct F2 as [_ F2]. subst. exact F1.
    + destruct F2 as [_ F2]. subst. exact F1.
    + destruct F2 as [_ F2]. subst. exact F1.
    + destruct F2 as [[] _].
  - intros F. exists R. split; [exact F|]. assert (N : R <> NoFuel) by apply F.
    destruct R as [[[[|v] r1] h1]|i w h1| | |]; cbn; auto.
    apply finL_nil. reflexivity.
Qed.

(** An expression with a known value. *)
Lemma wants_val {A} r h e v h1 (P : Z -> memory -> res A -> Prop) R : finE r h e (Val (Some v, h1)) -> wants r h e P R <-> P v h1 R.
Proof.
  intros F. assert (U := fun R => fin_unique _ _ R (monotone_eval r h e) F). split.
  - intros [[v' [h' [F1 F2]]]|[[h' [F1 _]]|[E [F1 [F2 _]]]]]; apply U in F1; [inversion F1; subst; exact F2|discriminate|subst; contradiction].
  - intros H. left. eauto.
Qed.

Lemma finE_var r h t x v : r x = Some v -> finE r h (EVar t x) (Val (Some v, h)).
Proof. intros E. split; [discriminate|]. exists 1%nat, O. rewrite eval_step, E. reflexivity. Qed.
Lemma finE_int r h t z : finE r h (ELitInt t z) (Val (Some (wint z), h)).
Proof. split; [discriminate|]. exists 1%nat, O. reflexivity. Qed.
Lemma finE_off r h t z : finE r h (EOff t z) (Val (Some (word z), h)).
Proof. split; [discriminate|]. exists 1%nat, O. reflexivity. Qed.
Lemma finE_need2 {A} r h a b va h1 vb h2 (k : Z -> Z -> memory -> res A) (f : nat -> nat -> res A) :
  finE r h a (Val (Some va, h1)) -> finE r h1 b (Val (Some vb, h2)) -> k va vb h2 <> NoFuel ->
  (forall n d, f (S n) d = need (EVAL n d r h a) (fun x h => need (EVAL n d r h b) (fun y h => k x y h))) -> fin f (k va vb h2).
Proof.
  intros [N1 [n1 [d1 E1]]] [N2 [n2 [d2 E2]]] N3 F. split; [exact N3|].
  exists (S (Nat.max n1 n2)), (Nat.max d1 d2). rewrite F.
  rewrite (eval_more heap lit fun_addr fun_at extern abstract alloc prog n1 d1 _ _ r h a _ (Nat.le_max_l _ _) (Nat.le_max_l _ _) N1 E1). cbn [need bind].
  rewrite (eval_more heap lit fun_addr fun_at extern abstract alloc prog n2 d2 _ _ r h1 b _ (Nat.le_max_r _ _) (Nat.le_max_r _ _) N2 E2). reflexivity.
Qed.
Lemma finE_add r h t a b va h1 vb h2 : finE r h a (Val (Some va, h1)) -> finE r h1 b (Val (Some vb, h2)) ->
  finE r h (EArith t Add a b) (Val (Some (wint (iadd (ival va) (ival vb))), h2)).
Proof.
  intros A B. apply (finE_need2 r h a b va h1 vb h2 (fun x y h => Val (Some (wint (iadd (ival x) (ival y))), h))); auto; discriminate.
Qed.
Lemma finE_cmp r h t op a b va h1 vb h2 : finE r h a (Val (Some va, h1)) -> finE r h1 b (Val (Some vb, h2)) ->
  finE r h (ECmp t op a b) (Val (Some (wbool (sem_cmp op (ival va) (ival vb))), h2)).
Proof.
  intros A B. apply (finE_need2 r h a b va h1 vb h2 (fun x y h => Val (Some (wbool (sem_cmp op (ival x) (ival y))), h))); auto; discriminate.
Qed.
Lemma finE_addr r h e a h1 : (forall n d, EVAL (S n) d r h e = bind (EVAL_ADDR n d r h e) (fun '(a, h) => if ok8 heap a then Val (Some (load h a), h) else Stuck)) ->
  finA r h e (Val (a, h1)) -> ok8 heap a = true -> finE r h e (Val (Some (load h1 a), h1)).
Proof. intros S [_ [n [d E]]] O. split; [discriminate|]. exists (Datatypes.S n), d. rewrite S, E. cbn [bind]. rewrite O. reflexivity. Qed.
Lemma finE_dot r h t a b va h1 vb h2 : finE r h a (Val (Some va, h1)) -> finE r h1 b (Val (Some vb, h2)) ->
  ok8 heap (word (va + vb)) = true -> finE r h (EDot t a b) (Val (Some (load h2 (word (va + vb))), h2)).
Proof.
  intros A B O. apply finE_addr; [reflexivity| |exact O].
  apply (finE_need2 r h a b va h1 vb h2 (fun x y h => Val (word (x + y), h))); auto; discriminate.
Qed.
End Fin.
