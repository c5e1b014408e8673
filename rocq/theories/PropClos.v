(** Closures: theorems for property C23. *)
From Coq Require Import ZArith List Bool Arith Lia Permutation.
From Verif Require Import ParseModel ClosModel ClosSpec ClosCheck ClosSound.
Import ListNotations.
Open Scope nat_scope.

(* --------------------------------------------------------------------------------- C23 *)

(** The walk for free variables ends for every function; it finds no variable of the
    function's own, and every variable of enclosing functions that is used outside of the
    index of an array variable. *)
Theorem C23_free_variables_found_partial : forall fn, no_fns fn -> exists vs, free_vars fn = Some vs /\
  (forall x, In x vs -> s_global x = false /\ s_lit x = false /\ plainly_uses fn x /\ (scoped fn -> ~ own fn x)) /\
  (forall x, plainly_uses fn x -> s_global x = false -> s_lit x = false -> ~ own fn x -> In x vs).
Proof. exact free_vars_ok. Qed.
Print Assumptions C23_free_variables_found_partial.

(** A function that uses variables of enclosing functions, moved to the top level with an
    environment: the environment is made of the values of the variables where the function
    is written, and a call of the moved function with the environment ends like the
    function would where it was written, with the outer variables as they were when the
    closure was made.  This is so for all meanings of operators, calls and memory, for all
    values, and for all orders in which the variables are listed.  Missing: functions that
    use a variable only in the index of an array variable, and variables or fields with the
    same name (both refuted below); the code generated for the constructor of the
    environment and for the call of a closure. *)
Theorem C23_closures_see_captured_values_partial : forall V W (P : prims V W) fn n vs0 vs,
  well_formed fn -> no_fns fn -> scoped fn -> captures_plainly fn -> ~ uses fn (n_env n) ->
  free_vars fn = Some vs0 -> Permutation vs0 vs -> NoDup (map s_name vs) ->
  forall s0 env0 k, exists es, evals (eval P env0 (S k)) (capture vs) s0 = Some (es, s0) /\
    forall fuel s s1, world s = world s1 -> (forall x, own fn x -> s_stack x = true -> vars s x = vars s1 x) ->
      (forall x, outer fn x -> vars s x = vars s0 x) -> env_of s1 = es ->
      ends_alike P fn vs (run P (n_env n) fuel fn s) (run P (n_env n) fuel (hoisted n vs fn) s1).
Proof.
  intros V W P fn n vs0 vs H1 H2 H3 H4 H5 H6 H7 H8 s0 env0 k. exists (map (fun x => value P x s0) vs). split; [apply capture_values|].
  intros fuel s s1 Hw Ho Hout He. apply hoisted_same with vs0; auto. rewrite He. apply map_ext_in. intros x Hx. unfold value. destruct (s_stack x) eqn:Es; [|reflexivity]. symmetry. apply Hout.
  apply (Permutation_in x (Permutation_sym H7)) in Hx. destruct (free_vars_ok fn H2) as (vs1 & E & F & _). rewrite H6 in E. injection E as <-. destruct (F x Hx) as (F1 & F2 & _ & F3). repeat split; auto.
Qed.
Print Assumptions C23_closures_see_captured_values_partial.

(** Later calls: the environment a call leaves behind is what the next one starts with. *)
Theorem C23_later_calls_partial : forall V W (P : prims V W) fn n vs0 vs,
  well_formed fn -> no_fns fn -> scoped fn -> captures_plainly fn -> ~ uses fn (n_env n) ->
  free_vars fn = Some vs0 -> Permutation vs0 vs -> NoDup (map s_name vs) ->
  forall fuel s s1, world s = world s1 -> (forall x, own fn x -> s_stack x = true -> vars s x = vars s1 x) -> env_of s1 = map (fun x => value P x s) vs ->
    ends_alike P fn vs (run P (n_env n) fuel fn s) (run P (n_env n) fuel (hoisted n vs fn) s1).
Proof. intros V W P fn n vs0 vs. apply hoisted_same. Qed.
Print Assumptions C23_later_calls_partial.

(** fn(y) [ z := x + y  x = z  return z ] where x is a variable of the enclosing function. *)
Definition ex_x := Sym 1 [120%Z] 16 true false false.
Definition ex_y := Sym 2 [121%Z] 8 true false false.
Definition ex_z := Sym 3 [122%Z] 16 true false false.
Definition ex_env := Sym 4 [101%Z] 8 true false false.
Definition ex_names := Names ex_env 100 (Sym 5 [] 0 false true false) (Sym 6 [] 0 false true false) (Sym 7 [] 0 false true false).
Definition nd o l r : tree := Tree o None (Some l) (Some r) [] [] [].
Definition ret e : tree := Tree OpReturn None (Some e) None [] [] [].
Definition ex_fn : tree := Tree OpBlockFn None None None [nd OpDas (ident ex_z) (nd OpAdd (ident ex_x) (ident ex_y)); nd OpAs (ident ex_x) (ident ex_z); ret (ident ex_z)] [ident ex_y] [ex_y; ex_z].
(** Numbers; addition is the only operator. *)
Definition ex_prims : prims nat unit := Prims nat unit (fun a => a) (fun _ => 0)
  (fun o _ vs w => match o, vs with OpAdd, [a; b] => Some (a + b, w) | (OpDot | OpArray), [a; b] => Some (b, w) | _, _ => None end)
  (fun v => negb (v =? 0)) (fun _ _ _ _ => None) (fun _ _ _ => None) (fun _ _ _ => None).
(** All nodes of a tree, with their scopes, to look at one by one. *)
Fixpoint subs (d : nat) (t : tree) : list (tree * list (list sym)) :=
  match d with O => [] | S d => (t, own_scope t) :: map (fun p => (fst p, own_scope t ++ snd p)) (flat_map (subs d) (parts t)) end.
Fixpoint deep (d : nat) (t : tree) : bool := match d with O => false | S d => forallb (deep d) (parts t) end.
Lemma below_subs : forall d m cs t, deep d t = true -> (below m cs t <-> In (m, cs) (subs d t)).
Proof.
  induction d as [|d IH]; intros m cs t H; [discriminate|]. cbn [deep] in H. rewrite forallb_forall in H. cbn [subs]. split.
  - intros B. inversion B; subst; [now left|]. right. apply in_map_iff. exists (m, cs0). split; [reflexivity|]. apply in_flat_map. exists k. split; [assumption|]. apply IH; auto.
  - intros [[= <- <-]|B]; [constructor|]. apply in_map_iff in B. destruct B as ([m1 cs1] & [= <- <-] & B). apply in_flat_map in B. destruct B as (k & Hk & B). apply below_kid with k; [exact Hk|]. apply IH in B; auto.
Qed.
Lemma flat_own d fn : deep d fn = true -> forallb (fun p => negb (declares (t_op (fst p)))) (subs d fn) = true -> forall x, own fn x -> In x (t_scope fn).
Proof.
  intros Hd H x [Hx|(m & cs & Hm & Ho & _)]; [exact Hx|]. apply below_subs with (1 := Hd) in Hm. rewrite forallb_forall in H. specialize (H _ Hm). cbn in H. rewrite Ho in H. discriminate.
Qed.
Lemma flat_scoped d fn : deep d fn = true -> forallb (fun p => negb (declares (t_op (fst p)))) (subs d fn) = true -> scoped fn.
Proof. intros Hd H m cs x _ _ Ho. left. now apply (flat_own d fn Hd H). Qed.
Ltac one H := repeat (match type of H with _ \/ _ => destruct H as [H|H] | False => destruct H end).
Ltac each H := apply (below_subs 9) in H; [|reflexivity]; vm_compute in H; one H; injection H as <- <-.
Ltac name H := destruct H as (? & ? & ? & ? & ? & H); (discriminate H || injection H as <- <- <- <- <- <-).
Example C23_example :
  well_formed ex_fn /\ no_fns ex_fn /\ scoped ex_fn /\ captures_plainly ex_fn /\ ~ uses ex_fn ex_env /\ free_vars ex_fn = Some [ex_x] /\
  hoisted ex_names [ex_x] ex_fn =
    (let f := Sym 100 [120%Z] 0 false false false in let env_x := Tree OpDot (Some f) (Some (ident ex_env)) (Some (ident f)) [] [] [] in
     Tree OpBlockFn (Some (n_fn ex_names)) None None [nd OpDas (ident ex_z) (nd OpAdd env_x (ident ex_y)); nd OpAs env_x (ident ex_z); ret (ident ex_z)] [ident ex_env; ident ex_y] [ex_y; ex_z]) /\
  (exists s1, run ex_prims ex_env 9 (hoisted ex_names [ex_x] ex_fn) (State (fun y => if sym_eqb y ex_y then 5 else 0) [37] tt) = Some (Ret (Some 42), s1) /\ env_of s1 = [42]).
Proof.
  split; [|split; [|split; [|split; [|split]]]].
  - split; [reflexivity|]. intros k m cs Hk Hm. vm_compute in Hk. one Hk; subst k; each Hm.
    all: repeat split; try discriminate; cbn.
    + eexists. split; [reflexivity|]. exists ex_z. split; [repeat eexists|]. split; [left; cbn; auto|reflexivity].
    + intros a x [= <-] Hx. now name Hx.
  - intros k m cs Hk Hm. vm_compute in Hk. one Hk; subst k; each Hm; reflexivity.
  - now apply (flat_scoped 9).
  - intros x (m & cs & Hm & Hx) _ Ho. each Hm; name Hx; try (destruct Ho; left; cbn; now auto); (split; [reflexivity|]; split; [reflexivity|]).
    all: eexists (ident ex_x), _; split; [|left; repeat eexists].
    all: eapply plain_kid with (k := nd OpAs (ident ex_x) (ident ex_z)); [reflexivity|cbn; auto|]; eapply plain_kid with (k := ident ex_x); [reflexivity|cbn; auto|]; constructor.
  - intros (m & cs & Hm & Hx). each Hm; name Hx.
  - split; [reflexivity|]. split; [reflexivity|]. eexists. split; [vm_compute; reflexivity|reflexivity].
Qed.

(** Not so when an outer variable is used only in the index of an array variable:
    fn() = a[i].  The walk does not go below such an index, i stays the number of a place in
    the frame of the enclosing function and is read in the frame of the new one. *)
Definition bad_a := Sym 1 [97%Z] 8 true false false.
Definition bad_i := Sym 2 [105%Z] 16 true false false.
Definition bad_index : tree := Tree OpExprFn None None None [nd OpArray (ident bad_a) (ident bad_i)] [] [].
Theorem C23_array_index_refuted : ~ (forall V W (P : prims V W) fn n vs0 vs,
  well_formed fn -> no_fns fn -> scoped fn -> ~ uses fn (n_env n) -> free_vars fn = Some vs0 -> Permutation vs0 vs -> NoDup (map s_name vs) ->
  forall s0 fuel s s1, world s = world s1 -> (forall x, own fn x -> s_stack x = true -> vars s x = vars s1 x) -> (forall x, outer fn x -> vars s x = vars s0 x) -> env_of s1 = map (fun x => value P x s0) vs ->
  ends_alike P fn vs (run P (n_env n) fuel fn s) (run P (n_env n) fuel (hoisted n vs fn) s1)).
Proof.
  intros H.
  specialize (H nat unit ex_prims bad_index ex_names [bad_a] [bad_a]).
  assert (R : forall s0 fuel s s1, world s = world s1 -> (forall x, own bad_index x -> s_stack x = true -> vars s x = vars s1 x) -> (forall x, outer bad_index x -> vars s x = vars s0 x) -> env_of s1 = map (fun x => value ex_prims x s0) [bad_a] ->
    ends_alike ex_prims bad_index [bad_a] (run ex_prims ex_env fuel bad_index s) (run ex_prims ex_env fuel (hoisted ex_names [bad_a] bad_index) s1)).
  { apply H; clear H.
    - split; [reflexivity|]. intros k m cs Hk Hm. vm_compute in Hk. one Hk; subst k; each Hm; repeat split; discriminate.
    - intros k m cs Hk Hm. vm_compute in Hk. one Hk; subst k; each Hm; reflexivity.
    - now apply (flat_scoped 9).
    - intros (m & cs & Hm & Hx). each Hm; name Hx.
    - reflexivity.
    - apply Permutation_refl.
    - repeat constructor; auto. }
  specialize (R (State (fun _ => 7) [] tt) 9 (State (fun _ => 7) [] tt) (State (fun _ => 0) [7] tt) eq_refl).
  assert (E : forall x, own bad_index x -> False) by (intros x Hx; apply (flat_own 9) in Hx; [destruct Hx|reflexivity|reflexivity]).
  specialize (R (fun x Hx => False_ind _ (E x Hx)) (fun x _ => eq_refl) eq_refl). vm_compute in R. destruct R as [R _]. discriminate.
Qed.
Print Assumptions C23_array_index_refuted.

(** Nor when a captured name is that of a field: fn() = v + z.s.v, where v is a variable and
    a field.  The field, not below a variable, is captured too, and both become the first
    field of that name of the environment. *)
Definition clash_v := Sym 1 [118%Z] 8 true false false.
Definition clash_z := Sym 2 [122%Z] 16 true false false.
Definition clash_s := Sym 3 [115%Z] 0 false false false.
Definition clash_f := Sym 4 [118%Z] 24 false false false.
Definition bad_names : tree := Tree OpExprFn None None None [nd OpAdd (ident clash_v) (nd OpDot (nd OpDot (ident clash_z) (ident clash_s)) (ident clash_f))] [] [].
Theorem C23_same_names_refuted : ~ (forall V W (P : prims V W) fn n vs0 vs,
  well_formed fn -> no_fns fn -> scoped fn -> captures_plainly fn -> ~ uses fn (n_env n) -> free_vars fn = Some vs0 -> Permutation vs0 vs ->
  forall s0 fuel s s1, world s = world s1 -> (forall x, own fn x -> s_stack x = true -> vars s x = vars s1 x) -> (forall x, outer fn x -> vars s x = vars s0 x) -> env_of s1 = map (fun x => value P x s0) vs ->
  ends_alike P fn vs (run P (n_env n) fuel fn s) (run P (n_env n) fuel (hoisted n vs fn) s1)).
Proof.
  intros H.
  specialize (H nat unit ex_prims bad_names ex_names [clash_f; clash_z; clash_v] [clash_v; clash_z; clash_f]).
  assert (E : forall x, own bad_names x -> False) by (intros x Hx; apply (flat_own 9) in Hx; [destruct Hx|reflexivity|reflexivity]).
  assert (R : forall s0 fuel s s1, world s = world s1 -> (forall x, own bad_names x -> s_stack x = true -> vars s x = vars s1 x) -> (forall x, outer bad_names x -> vars s x = vars s0 x) -> env_of s1 = map (fun x => value ex_prims x s0) [clash_v; clash_z; clash_f] ->
    ends_alike ex_prims bad_names [clash_v; clash_z; clash_f] (run ex_prims ex_env fuel bad_names s) (run ex_prims ex_env fuel (hoisted ex_names [clash_v; clash_z; clash_f] bad_names) s1)).
  { apply H; clear H.
    - split; [reflexivity|]. intros k m cs Hk Hm. vm_compute in Hk. one Hk; subst k; each Hm; repeat split; discriminate.
    - intros k m cs Hk Hm. vm_compute in Hk. one Hk; subst k; each Hm; reflexivity.
    - now apply (flat_scoped 9).
    - intros x (m & cs & Hm & Hx) Hs _. each Hm; name Hx; try discriminate Hs; (split; [reflexivity|]; split; [reflexivity|]).
      + eexists (ident clash_v), _. split; [|left; repeat eexists]. do 2 (eapply plain_kid; [reflexivity|cbn; left; reflexivity|]). constructor.
      + eexists (nd OpDot (ident clash_z) (ident clash_s)), _. split; [|right; split; [reflexivity|]; eexists; split; [reflexivity|repeat eexists]].
        eapply plain_kid; [reflexivity|cbn; left; reflexivity|]. eapply plain_kid; [reflexivity|cbn; right; left; reflexivity|]. eapply plain_kid; [reflexivity|cbn; left; reflexivity|]. constructor.
    - intros (m & cs & Hm & Hx). each Hm; name Hx.
    - reflexivity.
    - apply (Permutation_rev [clash_f; clash_z; clash_v]). }
  specialize (R (State (fun _ => 7) [] tt) 9 (State (fun _ => 7) [] tt) (State (fun _ => 0) [7; 7; 24] tt) eq_refl (fun x Hx => False_ind _ (E x Hx)) (fun x _ => eq_refl) eq_refl).
  vm_compute in R. destruct R as [R _]. discriminate.
Qed.
Print Assumptions C23_same_names_refuted.
