(** Function literals are moved to the top level: theorems for property C60. *)
From Coq Require Import ZArith List Bool Arith Lia Permutation.
From Verif Require Import ParseModel ClosModel ClosSpec ClosCheck HoistModel HoistSpec HoistProofs.
Import ListNotations.
Open Scope nat_scope.

(** Made symbols are global (closures.go:32-37, 68-71, 123-125, the constructors are of the
    root's scope), and captured variables are listed in some order (closures.go:100-106). *)
Definition fresh_names (names_of : nat -> names) : Prop :=
  forall id, s_global (n_env_cons (names_of id)) = true /\ s_global (n_cl_cons (names_of id)) = true /\ s_global (n_fn (names_of id)) = true.
Definition some_order (order : list sym -> list sym) : Prop := forall vs, Permutation vs (order vs).
(** What the type checker leaves: calls have a callee, and no top level node is a call. *)
Definition program (ds : list (list Z * tree)) : Prop := forall d, In d ds -> every has_callee (snd d) /\ t_op (snd d) <> OpFuncCall.

(* --------------------------------------------------------------------------------- C60 *)

(** The pass ends for every program.  Every function and type of it keeps its name and its
    shape: in place of each literal stands the function made of this very literal, or the
    closure of it with the values of its captured variables; a call of a value has become a
    call of invokeDynamic with the value before the arguments; all else is as it was.  No
    literal and no call of a value is left, but in functions named invokeDynamic, which stay
    as they are. *)
Theorem C60_every_literal_is_moved : forall names_of order dyn is_dyn, fresh_names names_of -> s_global dyn = true -> some_order order -> forall ds, program ds ->
  exists ds' s', convert_roots names_of order dyn is_dyn ds (State 0 []) = Some (ds', s') /\ Forall2 (root_done names_of order dyn (added s') is_dyn) ds ds'.
Proof. intros names_of order dyn is_dyn H1 H2 H3 ds H. destruct (roots_from_start names_of order dyn H1 H2 H3 is_dyn ds H) as (ds' & s' & E & R & _). eauto. Qed.
Print Assumptions C60_every_literal_is_moved.

(** One function is added for every literal and no other, inner ones before outer ones.  Each
    is the literal with the literals inside it moved first, and then given its environment
    (the theorems of C23 are about this); in it too no literal and no call of a value is left,
    though the pass does not visit it again.  Their ids are 1, 2, and so on: so no two have the
    same symbol when symbols made with different ids differ. *)
Theorem C60_one_function_for_each_literal : forall names_of order dyn is_dyn, fresh_names names_of -> s_global dyn = true -> some_order order -> forall ds, program ds ->
  forall ds' s', convert_roots names_of order dyn is_dyn ds (State 0 []) = Some (ds', s') ->
  added_for names_of order dyn (added s') 0 (all_literals is_dyn ds) (added s') /\
  (forall h, In h (added s') -> flat h) /\
  ((forall i j, n_fn (names_of i) = n_fn (names_of j) -> i = j) -> NoDup (map t_sym (added s'))).
Proof.
  intros names_of order dyn is_dyn H1 H2 H3 ds H ds0 s0 E0. destruct (roots_from_start names_of order dyn H1 H2 H3 is_dyn ds H) as (ds' & s' & E & _ & _ & A). rewrite E0 in E. injection E as <- <-.
  split; [exact A|]. destruct A as [L A]. assert (M : forall i h, nth_error (added s0) i = Some h -> exists fn, moved names_of order dyn (added s0) (S i) fn h).
  { intros i h Hi. destruct (nth_error (all_literals is_dyn ds) i) as [fn|] eqn:Hf; [exists fn; now apply A|]. apply nth_error_None in Hf. rewrite <- L in Hf. apply nth_error_None in Hf. congruence. }
  split.
  - intros h Hh. apply In_nth_error in Hh as (i & Hi). destruct (M i h Hi) as (fn & F & _). exact F.
  - intros Inj. apply NoDup_nth_error. intros i j Li Eq. rewrite map_length in Li. rewrite !nth_error_map in Eq. destruct (nth_error (added s0) i) as [h|] eqn:Hi; [|apply nth_error_None in Hi; lia].
    destruct (nth_error (added s0) j) as [h'|] eqn:Hj; [|discriminate]. destruct (M i h Hi) as (fn & _ & S1 & _), (M j h' Hj) as (fn' & _ & S2 & _). cbn in Eq. rewrite S1, S2 in Eq. injection Eq as Eq. apply Inj in Eq. lia.
Qed.
Print Assumptions C60_one_function_for_each_literal.

(** The literals meant are all functions below the top level. *)
Theorem C60_literals_are_the_inner_functions : forall t f, In f (inner_literals t) <-> (exists k, In k (parts t) /\ inside f k) /\ is_fn (t_op f) = true.
Proof.
  intros t f. unfold inner_literals. rewrite in_flat_map. split.
  - intros (k & Hk & Hf). apply literals_inside in Hf as [Hf I]. eauto.
  - intros [(k & Hk & Hf) I]. exists k. split; [exact Hk|]. apply literals_inside. auto.
Qed.
Print Assumptions C60_literals_are_the_inner_functions.

(** What the pass gave, it leaves as it is: another run, over the functions added too, changes
    nothing and adds nothing. *)
Theorem C60_nothing_left_to_do : forall names_of order dyn t s, flat t -> convert names_of order dyn true t s = Some (t, s).
Proof. exact flat_stays. Qed.
Print Assumptions C60_nothing_left_to_do.

(** fn main(): g := fn(y) return (fn(z) x + y + z); then g(1) and the literal fn() y called on
    the spot. *)
Definition h_x := Sym 1 [120%Z] 8 true false false.
Definition h_y := Sym 2 [121%Z] 8 true false false.
Definition h_z := Sym 3 [122%Z] 8 true false false.
Definition h_g := Sym 4 [103%Z] 16 true false false.
Definition h_dyn := Sym 5 [100%Z] 0 false true false.
Definition h_names (id : nat) : names :=
  Names (Sym (10 * id + 10) [101%Z] 8 true false false) (100 * id) (Sym (10 * id + 11) [] 0 false true false) (Sym (10 * id + 12) [] 0 false true false) (Sym (10 * id + 13) [] 0 false true false).
Definition h_two o a b : tree := Tree o None (Some a) (Some b) [] [] [].
Definition h_inner : tree := Tree OpExprFn None None None [h_two OpAdd (h_two OpAdd (ident h_x) (ident h_y)) (ident h_z)] [ident h_z] [h_z].
Definition h_outer : tree := Tree OpBlockFn None None None [Tree OpReturn None (Some h_inner) None [] [] []] [ident h_y] [h_y].
Definition h_const : tree := Tree OpExprFn None None None [Tree OpLit None None None [] [] []] [] [].
Definition h_call f args : tree := Tree OpFuncCall None (Some f) None args [] [].
Definition h_main : tree := Tree OpBlockFn None None None [h_two OpDas (ident h_g) h_outer; h_call (ident h_g) [ident h_x]; h_call h_const []] [] [h_x; h_g].
Definition h_name : list Z := [109%Z].
Definition h_rename (id : nat) (vs : list sym) (fn : tree) := hoisted (h_names id) vs fn.
Definition h_closure id vs := in_place (h_names id) vs.
Example C60_example : fresh_names h_names /\ s_global h_dyn = true /\ program [(h_name, h_main)] /\ (forall i j, n_fn (h_names i) = n_fn (h_names j) -> i = j) /\
  all_literals (fun _ => false) [(h_name, h_main)] = [h_inner; h_outer; h_const] /\
  (exists order, some_order order /\
  let outer1 := Tree OpBlockFn None None None [Tree OpReturn None (Some (h_closure 1 [h_x; h_y])) None [] [] []] [ident h_y] [h_y] in
  convert_roots h_names order h_dyn (fun _ => false) [(h_name, h_main)] (State 0 []) =
    Some ([(h_name, Tree OpBlockFn None None None [h_two OpDas (ident h_g) (h_closure 2 [h_x]); h_call (ident h_dyn) [ident h_g; ident h_x]; h_call (ident (n_fn (h_names 3))) []] [] [h_x; h_g])],
          State 3 [h_rename 1 [h_x; h_y] h_inner; h_rename 2 [h_x] outer1; h_rename 3 [] h_const])).
Proof.
  split; [repeat split|]. split; [reflexivity|]. split.
  { intros d [<-|[]]. split; [|discriminate]. intros m Hm O.
    repeat match goal with H : inside _ _ |- _ => inversion H; subst; clear H; [try discriminate O; discriminate|]; match goal with K : In _ (parts _) |- _ => cbn in K; repeat (destruct K as [<-|K]); [..|destruct K] end end;
    match goal with K : False |- _ => destruct K end. }
  split; [intros i j [= E]; lia|]. split; [reflexivity|].
  exists (@rev sym). split; [intros vs; apply Permutation_rev|]. vm_compute. reflexivity.
Qed.

(** A function named invokeDynamic keeps its literals; the one of the runtime has none. *)
Example C60_skipped : convert_roots h_names (fun vs => vs) h_dyn (fun _ => true) [(h_name, h_main)] (State 0 []) = Some ([(h_name, h_main)], State 0 []).
Proof. reflexivity. Qed.
