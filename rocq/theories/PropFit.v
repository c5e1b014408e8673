(** When the code generator does not panic: theorems for property C57. *)
From Coq Require Import ZArith List Bool String Lia.
From Verif Require Import X86 GenModel GenProgram GenStatic FitSpec FitProofs.
Import ListNotations.
Open Scope Z_scope.

(* --------------------------------------------------------------------------------- C57 *)

(** Whatever the state of the compiler: code is made for a function, without a panic, exactly
    when it has code. *)
Theorem C57_code_for_functions : forall alloc f s, (exists c s', gen_fn alloc f s = Some (c, s')) <-> has_code f.
Proof. exact gen_fn_runs. Qed.
Print Assumptions C57_code_for_functions.

(** The same for all functions of a program, one after the other. *)
Theorem C57_code_for_programs : forall alloc fs s, (exists c s', gen_fns alloc fs s = Some (c, s')) <-> Forall has_code fs.
Proof. exact gen_fns_run. Qed.
Print Assumptions C57_code_for_programs.

(** A program with a function that has no code gives no program at all. *)
Theorem C57_no_code_no_program : forall unq alloc ioob entry ts fs s f, In f fs -> ~ has_code f -> gen_program unq alloc ioob entry ts fs s = None.
Proof.
  intros unq alloc ioob entry ts fs s f I N. destruct (gen_program unq alloc ioob entry ts fs s) as [[c s']|] eqn:E; [|reflexivity].
  apply seq_inv in E as (c1 & s1 & c2 & H1 & _ & _). assert (F : Forall has_code fs) by (apply (gen_fns_run alloc fs s); eauto).
  rewrite Forall_forall in F. destruct (N (F f I)).
Qed.
Print Assumptions C57_no_code_no_program.

Definition t_int : ty := Ty TInteger 1. Definition t_bool : ty := Ty TBoolean 2. Definition t_string : ty := Ty TString 3. Definition t_fn : ty := Ty TFunction 4.
Definition plain_fi (k : kind) : fninfo := FnInfo false false false k.

(** Not every function whose types are right has code.  A comparison of strings, a function
    with seven parameters, and a call of the result of a call in an argument after a string:
    the rules of types allow all three and the code generator panics. *)
Definition compares_strings : fundef :=
  Fun "equal" [(0%nat, t_string); (1%nat, t_string)] (BExpr (ECmp t_bool Eq (EVar t_string 0) (EVar t_string 1))) TBoolean false.
Definition seven_parameters : fundef :=
  Fun "seven" (map (fun x => (x, t_int)) (List.seq 0 7)) (BExpr (EVar t_int 3)) TInteger false.
Definition calls_a_result : fundef :=
  Fun "late" [(0%nat, t_string)]
    (BExpr (ECall t_int (plain_fi TInteger) "g" [EVar t_string 0; ECallExpr t_int (plain_fi TInteger) (ECall t_fn (plain_fi TFunction) "h" []) []])) TInteger false.
Theorem C57_typed_functions_have_code_refuted : forall alloc s,
  gen_fn alloc compares_strings s = None /\ gen_fn alloc seven_parameters s = None /\ gen_fn alloc calls_a_result s = None.
Proof.
  assert (N : forall alloc f s, ~ has_code f -> gen_fn alloc f s = None).
  { intros alloc f s H. destruct (gen_fn alloc f s) as [[c s']|] eqn:E; [|reflexivity]. destruct H. apply (gen_fn_runs alloc f s). eauto. }
  intros alloc s. split; [|split]; apply N; intros (L & F & _); cbn in *.
  - inversion F; subst. match goal with K : int (EVar _ _) |- _ => discriminate K end.
  - lia.
  - inversion F; subst. match goal with K : fit_args _ _ |- _ => inversion K; subst; clear K end.
    match goal with K : fit_args _ _ |- _ => inversion K; subst; clear K end. match goal with K : fit _ (ECallExpr _ _ _ _) |- _ => inversion K end. discriminate.
Qed.
Print Assumptions C57_typed_functions_have_code_refuted.

(** The same call has code when it comes before the string or is given a name. *)
Definition calls_early : fundef :=
  Fun "early" [(0%nat, t_string)]
    (BBlock [SDas 1%nat t_int (ECall t_int (plain_fi TInteger) "g" [ECallExpr t_int (plain_fi TInteger) (ECall t_fn (plain_fi TFunction) "h" []) [EVar t_string 0]; EVar t_string 0]);
             SIf [(Some (ECmp t_bool Lt (EVar t_int 1) (ELitInt t_int 5)), [SReturn (Some (EArith t_int Add (EVar t_int 1) (ELitInt t_int 1)))]); (None, [SReturn (Some (ELitInt t_int (-3)))])];
             SWhile (ELitBool t_bool true) [SExpr (ECall t_int (plain_fi TInteger) "early" [ELitStr t_string []])]]) TInteger false.
Example early_has_code : has_code calls_early.
Proof.
  split; [cbn; lia|]. split; [|vm_compute; discriminate].
  cbn. intros st [<-|[<-|[<-|[]]]]; constructor.
  - constructor; [|cbn; lia]. constructor; [constructor; auto|].
    + constructor; [constructor|cbn; lia].
    + constructor; [constructor|constructor].
    + cbn; lia.
    + constructor; [constructor|constructor].
  - intros c b [H|[H|[]]]; [injection H as <- <-|discriminate]. constructor; try reflexivity; constructor; try reflexivity; lia.
  - intros c b st [H|[H|[]]] I; injection H as <- <-; destruct I as [<-|[]]; repeat constructor; lia.
  - constructor.
  - intros st [<-|[]]. constructor. constructor; [|cbn; lia]. constructor; [constructor|constructor].
Qed.
Example early_is_compiled : exists c s', gen_fn "alloc" calls_early start = Some (c, s') /\ (50 < List.length c)%nat.
Proof.
  assert (H : match gen_fn "alloc" calls_early start with Some (c, _) => (50 <? List.length c)%nat | None => false end = true) by (vm_compute; reflexivity).
  destruct (gen_fn "alloc" calls_early start) as [[c s']|]; [|discriminate]. exists c, s'. split; auto. now apply Nat.ltb_lt.
Qed.
(** A function with 4096 variables has code, one with 4097 has none. *)
Definition many (n : nat) : fundef := Fun "many" [] (BBlock (map (fun x => SExpr (EVar t_int x)) (List.seq 0 n))) TNothing false.
Example many_variables : forall n, has_code (many n) <-> Z.of_nat n <= 4096.
Proof.
  intros n. assert (V : forall l, list_vars (map (fun x => SExpr (EVar t_int x)) l) = l) by (induction l; cbn in *; congruence).
  assert (L : locals (many n) = List.seq 0 n).
  { unfold locals, many. cbn [f_params f_body body_vars map]. rewrite V. rewrite (filter_ext _ (fun _ => true)) by reflexivity.
    assert (T : forall l : list nat, filter (fun _ => true) l = l) by (induction l; cbn; congruence). rewrite T. apply nodup_fixed_point. apply seq_NoDup. }
  unfold has_code. rewrite L, seq_length. cbn [f_params many f_body fit_body List.length].
  split; [intros (_ & _ & H); lia|]. intros H. split; [lia|]. split; [|lia]. intros st I. apply in_map_iff in I as (x & <- & _). repeat constructor.
Qed.
