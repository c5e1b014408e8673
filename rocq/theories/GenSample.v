(** Generated files as loaded programs, and a small program used as an example. *)
From Coq Require Import ZArith List Bool String Lia.
From Verif Require Import Ints X86 GenModel GenProgram GenSpec GenMem GenStatic GenSlots GenPure GenExec GenCorrect GenLabels GenLink GenWorld GenProps.
Import ListNotations.
Open Scope Z_scope.

(** A file with its labels and places at the addresses GenLink.v gives them; [prog]
    are the functions followed, [mext] says what functions outside the file do to the
    machine, [extern] and [abstract] what functions outside [prog] mean. *)
Definition file_world (P : list event) (lits : list (list Z)) mext mskips heap extern abstract alloc prog lo hi room frame : world :=
  World (link_label P) mext mskips code_addr code_place P heap (link_lit P lits) (link_fun P) (link_at P)
    extern abstract alloc prog lits lo hi room frame.

Lemma file_loaded unq alloc ioob entry ts full P sf mext mskips heap lo hi room frame extern abstract prog :
  gen_program unq alloc ioob entry ts full start = Some (P, sf) ->
  NoDup (map f_name full ++ routine_names) -> NoDup (map_labels ts) -> Z.of_nat (List.length P) < 2 ^ 59 ->
  0 <= lo -> hi < 2 ^ 64 -> (forall a, heap a = true -> is_addr a /\ (a < lo \/ hi <= a)) -> 16 <= room -> 0 <= frame ->
  incl prog full -> (forall fd, In fd prog -> safe_fun fd = true /\ frame_bytes fd <= frame) ->
  (forall f vs h v h', extern f vs h = Some (v, h') ->
     runtime heap (whole_table P) f vs h = Some (v, h') \/
     find_fn P f = None /\ mskips f = false /\ foreign mext heap lo hi room f vs h v h') ->
  (forall f vs h v h', abstract f vs h = Some (v, h') ->
     find_fn P f = None /\ mskips f = true /\ foreign mext heap lo hi room f vs h v h') ->
  loaded (file_world P (g_lits sf) mext mskips heap extern abstract alloc prog lo hi room frame).
Proof.
  intros Hg Hn Hm Hs Hlo Hhi Hh Hr Hf Hi Hsafe He Ha. split; [|split; [exact Hf|exact Hsafe]].
  cbn [file_world w_laddr w_ext w_skips w_addr w_place w_code w_heap w_lit w_fun_addr w_fun_at w_extern w_abstract w_alloc w_prog w_lits w_lo w_hi w_room].
  eapply link_program; try eassumption; auto.
  - intros f vs h v h' H. destruct (He _ _ _ _ _ H) as [G|(G1 & G2 & G3)]; [auto|]. right. intros n. apply foreign_contract; assumption.
  - intros f vs h v h' H n l Hl. destruct (Ha _ _ _ _ _ H) as (G1 & G2 & G3). apply foreign_contract_skip; auto.
    apply code_place_addr8.
Qed.

(** The machine as a function. *)
Fixpoint run_for (w : world) (k : nat) (st : mstate) : option mstate :=
  match k with O => Some st | S k => match one_step w st with Some st => run_for w k st | None => None end end.
Lemma run_for_runs w k : forall st st', run_for w k st = Some st' -> runs w st st'.
Proof.
  induction k as [|k IH]; intros st st' H; cbn in H; [injection H as <-; apply steps_refl|].
  destruct (one_step w st) as [s1|] eqn:E; [|discriminate]. eapply steps_step; [exact E|now apply IH].
Qed.

(* ------------------------------------------------------------------------ the program *)

Definition t_int := Ty TInteger 0.
Definition t_bool := Ty TBoolean 1.
Definition t_pair := Ty TStruct 2.
Definition t_array := Ty TArray 3.
Definition v (x : nat) : expr := EVar t_int x.
Definition i (z : Z) : expr := ELitInt t_int z.
Definition direct : fninfo := FnInfo false false false TInteger.
(** fn fact(n: int) int { if n <= 1 { return 1 } return n * fact(n - 1) } *)
Definition fact_call : expr := ECall t_int direct "clara_fact.int" [EArith t_int Sub (v 0) (i 1)].
Definition f_fact : fundef := Fun "clara_fact.int" [(0%nat, t_int)]
  (BBlock [SIf [(Some (ECmp t_bool Lte (v 0) (i 1)), [SReturn (Some (i 1))])]; SReturn (Some (EArith t_int Mul (v 0) fact_call))]) TInteger false.
(** fn sum(n: int) int { s := 0  while n > 0 { s = s + n  n = n - 1 } return s } *)
Definition f_sum : fundef := Fun "clara_sum.int" [(0%nat, t_int)]
  (BBlock [SDas 1 t_int (i 0);
     SWhile (ECmp t_bool Gt (v 0) (i 0)) [SAs (v 1) (EArith t_int Add (v 1) (v 0)); SAs (v 0) (EArith t_int Sub (v 0) (i 1))];
     SReturn (Some (v 1))]) TInteger false.
(** struct pair { a: int, b: int } *)
Definition pair_text : list Z := [34; 112; 34].
Definition f_pair : fundef := Fun "clara_pair.int.int" [(0%nat, t_int); (1%nat, t_int)] (BCons None 9 pair_text) TStruct false.
(** fn second(p: pair) int = p.b *)
Definition f_second : fundef := Fun "clara_second.pair" [(0%nat, t_pair)]
  (BExpr (EDot t_int (EVar t_pair 0) (EOff t_int 8))) TInteger false.
(** fn set(p: pair, x: int) { p.b = x } *)
Definition f_set : fundef := Fun "clara_set.pair.int" [(0%nat, t_pair); (1%nat, t_int)]
  (BBlock [SAs (EDot t_int (EVar t_pair 0) (EOff t_int 8)) (v 1)]) TNothing false.
(** fn at(a: []int, n: int) int = a[n] *)
Definition f_at : fundef := Fun "clara_at.array.int.int" [(0%nat, t_array); (1%nat, t_int)]
  (BExpr (EIndex t_int (EVar t_array 0) (v 1))) TInteger false.
(** fn shl(a: int, n: int) int = a << n *)
Definition f_shl : fundef := Fun "clara_shl.int.int" [(0%nat, t_int); (1%nat, t_int)] (BExpr (EShift t_int BLeft (v 0) (v 1))) TInteger false.
(** fn third(a: int, b: int, c: int, d: int) int = c *)
Definition f_third : fundef := Fun "clara_third.int.int.int.int" [(0%nat, t_int); (1%nat, t_int); (2%nat, t_int); (3%nat, t_int)]
  (BExpr (v 2)) TInteger false.
(** fn bad() int = third(1, 2, 3, 8 / 2) *)
Definition bad_args : list expr := [i 1; i 2; i 3; EArith t_int Div (i 8) (i 2)].
Definition f_bad : fundef := Fun "clara_bad" [] (BExpr (ECall t_int direct "clara_third.int.int.int.int" bad_args)) TInteger false.

(** fn mix(a: int, b: int) int = a * b / (a - b) ^ (~a | -b) >> 1 *)
Definition mix : expr := EArith t_int BXor (EArith t_int Div (EArith t_int Mul (v 0) (v 1)) (EArith t_int Sub (v 0) (v 1)))
  (EShift t_int BRight (EArith t_int BOr (EBNot t_int (v 0)) (ENeg t_int (v 1))) (i 1)).
Definition f_mix : fundef := Fun "clara_mix.int.int" [(0%nat, t_int); (1%nat, t_int)] (BExpr mix) TInteger false.
(** fn test(a: int, b: int) bool = a <= b and not (a == b) or a > 100 *)
Definition test : expr := ELogic t_bool Or (ELogic t_bool And (ECmp t_bool Lte (v 0) (v 1)) (ENot t_bool (ECmp t_bool Eq (v 0) (v 1))))
  (ECmp t_bool Gt (v 0) (i 100)).
Definition f_test : fundef := Fun "clara_test.int.int" [(0%nat, t_int); (1%nat, t_int)] (BExpr test) TBoolean false.
(** fn nested(a: int, b: int) int = third(a / b, third(1, 2, b, 4), fact(a), a << b) *)
Definition third_call (a b c d : expr) : expr := ECall t_int direct "clara_third.int.int.int.int" [a; b; c; d].
Definition nested_args : list expr :=
  [EArith t_int Div (v 0) (v 1); third_call (i 1) (i 2) (v 1) (i 4); ECall t_int direct "clara_fact.int" [v 0]; EShift t_int BLeft (v 0) (v 1)].
Definition nested : expr := ECall t_int direct "clara_third.int.int.int.int" nested_args.
Definition f_nested : fundef := Fun "clara_nested.int.int" [(0%nat, t_int); (1%nat, t_int)] (BExpr nested) TInteger false.

Definition sample_good : list fundef := [f_fact; f_sum; f_pair; f_second; f_set; f_at; f_shl; f_third; f_mix; f_test; f_nested].
Definition sample_full : list fundef := sample_good ++ [f_bad].
Definition sample_types : list gtype := [GString [34; 115; 34]; GStruct "pair" pair_text [(0, false); (8, false)]].
Definition sample_unq (s : list Z) : option (list Z) := Some (removelast (tl s)).
Notation sample_out := (gen_program sample_unq "clara_claralloc" "clara_ioob.int.int" "clara_main" sample_types sample_full start) (only parsing).
Definition sample_file : list event := match sample_out with Some (P, _) => P | None => [] end.
Definition sample_lits : list (list Z) := match sample_out with Some (_, s) => g_lits s | None => [] end.

(** The stack is from 65536 to 131072, the heap from 4096 to 8192; claralloc always
    returns 5000. *)
Definition sample_heap (a : Z) : bool := (4096 <=? a) && (a <? 8192).
Definition sample_ext (f : string) (c : regs * memory) : option (regs * memory) :=
  if String.eqb f "clara_claralloc" then Some (rset (fst c) rax 5000, snd c) else None.
Definition sample_abstract (f : string) (vs : list value) (h : memory) : option (value * memory) :=
  if String.eqb f "clara_claralloc" then Some (Some 5000, h) else None.
Definition sample : world :=
  file_world sample_file sample_lits sample_ext (String.eqb "clara_claralloc") sample_heap (fun _ _ _ => None) sample_abstract
    "clara_claralloc" sample_good 65536 131072 1024 256.

Lemma sample_generated : exists s, sample_out = Some (sample_file, s) /\ sample_lits = g_lits s.
Proof. unfold sample_file, sample_lits. destruct sample_out as [[P s]|] eqn:E; [eauto|vm_compute in E; discriminate]. Qed.
Ltac nodup_strings := match goal with |- NoDup ?l =>
  let l' := eval vm_compute in l in change (NoDup l'); repeat (constructor; [cbn; intuition discriminate|]); constructor end.
Lemma sample_names : NoDup (map f_name sample_full ++ routine_names).
Proof. nodup_strings. Qed.
Lemma sample_maps : NoDup (map_labels sample_types).
Proof. vm_compute. constructor. Qed.

Lemma sample_size : Z.of_nat (List.length sample_file) < 2 ^ 59.
Proof. apply Z.ltb_lt. vm_compute. reflexivity. Qed.
Lemma sample_incl : incl sample_good sample_full.
Proof. intros x Hx. apply in_app_iff. now left. Qed.
Lemma sample_safe fd : In fd sample_good -> safe_fun fd = true /\ frame_bytes fd <= 256.
Proof. intros Hfd. repeat (destruct Hfd as [<-|Hfd]; [vm_compute; split; [reflexivity|discriminate]|]). destruct Hfd. Qed.
Lemma sample_abstract_ok : forall f vs h v h', sample_abstract f vs h = Some (v, h') ->
     find_fn sample_file f = None /\ String.eqb "clara_claralloc" f = true /\ foreign sample_ext sample_heap 65536 131072 1024 f vs h v h'.
Proof.
  intros f vs h v0 h' H. unfold sample_abstract in H. destruct (String.eqb_spec f "clara_claralloc") as [->|]; [|discriminate].
    injection H as <- <-. split; [vm_compute; reflexivity|]. split; [reflexivity|]. intros rs m Ha Hm Hal Hsp.
    exists (rset rs rax 5000), m. split; [reflexivity|]. unfold rset. cbn. unfold is_addr. repeat split; auto; lia.
Qed.
Lemma sample_heap_ok a : sample_heap a = true -> is_addr a /\ (a < 65536 \/ 131072 <= a).
Proof. unfold sample_heap, is_addr. intros H. apply andb_prop in H as [H1 H2]. apply Z.leb_le in H1. apply Z.ltb_lt in H2. lia. Qed.
Lemma sample_loaded0 s : sample_out = Some (sample_file, s) ->
  loaded (file_world sample_file (g_lits s) sample_ext (String.eqb "clara_claralloc") sample_heap (fun _ _ _ => None) sample_abstract
    "clara_claralloc" sample_good 65536 131072 1024 256).
Proof.
  intros E.
  refine (file_loaded sample_unq "clara_claralloc" "clara_ioob.int.int" "clara_main" sample_types sample_full sample_file s sample_ext (String.eqb "clara_claralloc")
    sample_heap 65536 131072 1024 256 _ sample_abstract sample_good E sample_names sample_maps sample_size _ _ sample_heap_ok _ _ sample_incl sample_safe _ sample_abstract_ok);
    [lia|lia|lia|lia|]. discriminate.
Qed.
Lemma sample_loaded : loaded sample.
Proof.
  destruct sample_generated as (s & E & El). unfold sample. rewrite El. apply sample_loaded0. exact E.
Qed.

(* -------------------------------------------------------------------------- states *)

(** In the body of a function with two parameters [a] and [b], called with little else
    on the stack. *)
Definition zero : memory := fun _ => 0.
Definition two_slots : nat -> Z := get_slot [(0%nat, 8); (1%nat, 16)].
Definition two_vars (a b : Z) (x : nat) : option Z := if Nat.eqb x 0 then Some a else if Nat.eqb x 1 then Some b else None.
Definition body_regs : regs := fun r => match r with rbp => 131040 | rsp => 131024 | _ => 0 end.
Definition body_mem (h : memory) (a b : Z) : memory := store (store (store h 131048 (code_addr 3)) 131032 a) 131024 b.
Lemma body_inside h a b : is_addr a -> is_addr b -> inside sample two_slots 2 131040 2 [] (two_vars a b) h body_regs (body_mem h a b).
Proof.
  intros Ha Hb. constructor; try reflexivity; try (cbn; lia).
  - constructor; try reflexivity; try (cbn; lia).
    + intros x. unfold two_slots. cbn [get_slot]. destruct (Nat.eqb x 0); [intros _; split; [lia|reflexivity]|].
      destruct (Nat.eqb x 1); [intros _; split; [lia|reflexivity]|congruence].
    + intros x y. unfold two_slots. cbn [get_slot]. destruct (Nat.eqb_spec x 0), (Nat.eqb_spec x 1), (Nat.eqb_spec y 0), (Nat.eqb_spec y 1); lia.
  - intros x u. unfold two_vars, two_slots. cbn [get_slot]. destruct (Nat.eqb x 0); [|destruct (Nat.eqb x 1); [|discriminate]]; intros E; injection E as <-.
    + split; [exact Ha|]. split; [lia|]. unfold body_mem. rewrite load_store_other by lia. replace (131040 - 8) with 131032 by lia.
      rewrite load_store_same. now apply word_id.
    + split; [exact Hb|]. split; [lia|]. unfold body_mem. replace (131040 - 16) with 131024 by lia. rewrite load_store_same. now apply word_id.
  - intros x Hx. apply sample_heap_ok in Hx. cbn in Hx. unfold body_mem, store.
    repeat match goal with |- context [?p <=? x] => destruct (Z.leb_spec p x) end; cbn [andb]; try reflexivity; try lia;
    repeat match goal with |- context [x <? ?p] => destruct (Z.ltb_spec x p) end; cbn [andb]; try reflexivity; lia.
  - split; [|intros ? []]. intros k u r Hk. destruct k; discriminate.
Qed.
(** Where a function is, and where its body starts. *)
Definition sample_fn (f : string) : nat := match find_fn sample_file f with Some n => n | None => 0%nat end.
Lemma nth_firstn {A} k : forall n (l : list A), (k < n)%nat -> nth_error (firstn n l) k = nth_error l k.
Proof. induction k as [|k IH]; intros [|n] [|x l] H; cbn; try reflexivity; try lia. apply IH. lia. Qed.
Lemma nth_skipn {A} n : forall k (l : list A), nth_error (skipn n l) k = nth_error l (n + k).
Proof. induction n as [|n IH]; intros k [|x l]; cbn; try reflexivity; [now destruct k|apply IH]. Qed.
Lemma code_is P n c : firstn (List.length c) (skipn n P) = c -> code_at P n c.
Proof.
  intros H k e Hk. rewrite <- H in Hk. assert (k < List.length c)%nat by (rewrite <- H; apply nth_error_Some; congruence).
  rewrite nth_firstn in Hk by assumption. rewrite nth_skipn in Hk. exact Hk.
Qed.
(** At the entry of a function: the return address says place 4. *)
Definition entry_regs (a b : Z) : regs := fun r => match r with rbp => 131056 | rsp => 131048 | rdi => a | rsi => b | _ => 0 end.
Definition entry_mem (h : memory) : memory := store h 131048 (code_addr 3).
