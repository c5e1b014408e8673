(** C32: the peephole optimiser. *)
From Coq Require Import ZArith List Bool String Lia.
From Verif Require Import Ints X86 GenModel GenProgram GenLink GenSample PeepModel PeepSpec PeepCalls PeepExec PeepProofs PeepFlow PeepGen.
Import ListNotations.
Open Scope Z_scope.
Open Scope list_scope.

(* --- C32 *)

(** A program follows another one through its run: where the first one is between two
    instructions that are not written together, the second one is at the corresponding
    place, with the same memory and flags, and the same registers but for those that a
    left out move should have set. *)
Definition follows (P : list event) (D : reg -> bool) (s s' : mstate) : Prop :=
  pc s' = new_place P (pc s) /\ same_but D (mcore s) (mcore s').

(** For every sequence of instructions, layout and run in which no register is read that
    a left out move should have set: the optimised program computes the same.  Addresses
    of code are those of the optimised program. *)
Theorem C32_careful_runs_partial : forall laddr extern extern_skips addr place takes gives P s D s1 D1 s',
  extern_fair takes gives extern -> all_written P ->
  careful_run laddr extern extern_skips (fun n => addr (new_place P n))
    (fun w => match place w with Some q => old_place P q | None => None end) takes gives P s D s1 D1 ->
  joined P (pc s) = false -> follows P D s s' -> joined P (pc s1) = false ->
  exists s1', steps laddr extern extern_skips addr place (optimise P) s' s1' /\ follows P D1 s1 s1'.
Proof.
  intros laddr extern extern_skips addr place takes gives P s D s1 D1 s' F W R J [A B] J1.
  destruct (sim_run laddr extern extern_skips addr place takes gives P F W s D s1 D1 R s') as (s1' & St & [A1 B1]).
  - split; [exact A|]. now rewrite J.
  - rewrite J1 in B1. exists s1'. split; [exact St|]. split; assumption.
Qed.
Print Assumptions C32_careful_runs_partial.

(** Instructions are joined only if the first is a move to a register and the second
    moves that register on or pushes it, and no memory-to-memory move is made. *)
Theorem C32_joins : forall h i ops new,
  merged h i ops = Some new <->
  exists a r, h = Some (movq, [a; r]) /\ ((exists q, r = OReg q) \/ exists q, r = OReg8 q) /\
    ((exists b, i = movq /\ ops = [r; b] /\ new = (movq, [a; b]) /\ ~ ((exists m, a = OMem m) /\ exists m, b = OMem m)) \/
     (i = pushq /\ ops = [r] /\ new = (pushq, [a]))).
Proof.
  assert (R : forall x y, reg_matches x y = true <-> x = y /\ ((exists q, x = OReg q) \/ exists q, x = OReg8 q)).
  { intros x y. split.
    - destruct x, y; try discriminate; cbn; intros H; (split; [|eauto]); [destruct r, r0|destruct r, r0]; (discriminate || reflexivity).
    - intros [<- [[q ->]|[q ->]]]; now destruct q. }
  assert (M : forall x y, negb (is_mem x && is_mem y) = true <-> ~ ((exists m, x = OMem m) /\ exists m, y = OMem m)).
  { intros x y. split.
    - intros H [[m ->] [m' ->]]. discriminate.
    - intros H. destruct x, y; try reflexivity. elim H. eauto. }
  intros h i ops new. split.
  - unfold merged. destruct h as [[hi hops]|]; [|discriminate]. destruct hi; try discriminate. destruct hops as [|a [|r [|]]]; try discriminate.
    destruct i; try discriminate.
    + destruct ops as [|x [|b [|]]]; try discriminate. destruct (reg_matches r x) eqn:E; [|discriminate]. apply R in E as [<- E]. cbn [andb].
      destruct (negb (is_mem a && is_mem b)) eqn:Em; [|discriminate]. apply M in Em. intros [= <-]. exists a, r. eauto 10.
    + destruct ops as [|x [|]]; try discriminate. destruct (reg_matches r x) eqn:E; [|discriminate]. apply R in E as [<- E]. intros [= <-]. exists a, r. eauto 10.
  - intros (a & r & -> & Hr & [(b & -> & -> & -> & Hm)|(-> & -> & ->)]); cbn [merged]; rewrite (proj2 (R r r)) by auto; [|reflexivity].
    now rewrite (proj2 (M a b) Hm).
Qed.
Print Assumptions C32_joins.

(** Without the condition on the run it is wrong: the second move is written together
    with the first, the third one then reads a register that was not set. *)
Definition unlucky : list event :=
  [EFn "f"; EIns movq [OImm 1; OReg rax]; EIns movq [OReg rax; OReg rbx]; EIns movq [OReg rax; OReg rcx]; EFlush].
Definition zeros : core := (fun _ => 0, fun _ => 0, None).
Definition reg_of (r : reg) (s : mstate) : Z := let '(rs, _, _) := mcore s in rs r.
Theorem C32_any_sequence_refuted : exists P s1 s1',
  steps (fun _ => 0) (fun _ _ => None) (fun _ => false) (fun _ => 0) (fun _ => None) P (MState 0 zeros) s1 /\
  nth_error P (pc s1) = Some EFlush /\
  steps (fun _ => 0) (fun _ _ => None) (fun _ => false) (fun _ => 0) (fun _ => None) (optimise P) (MState 0 zeros) s1' /\
  nth_error (optimise P) (pc s1') = Some EFlush /\ reg_of rcx s1 = 1 /\ reg_of rcx s1' = 0.
Proof.
  exists unlucky. do 2 eexists. split; [do 4 (eapply steps_step; [reflexivity|]); apply steps_refl|]. split; [reflexivity|].
  split; [do 3 (eapply steps_step; [reflexivity|]); apply steps_refl|]. repeat split; reflexivity.
Qed.
Print Assumptions C32_any_sequence_refuted.

(** A run that meets the conditions: rax is set again before it is read. *)
Definition lucky : list event :=
  [EFn "f"; EIns movq [OImm 1; OReg rax]; EIns pushq [OReg rax]; EIns movq [OImm 2; OReg rax]; EIns movq [OReg rax; OReg rbx];
   EIns popq [OReg rax]; EIns addq [OReg rbx; OReg rax]; EFlush].
Example C32_careful_example : all_written lucky /\ optimise lucky =
  [EFn "f"; EIns pushq [OImm 1]; EIns movq [OImm 2; OReg rbx]; EIns popq [OReg rax]; EIns addq [OReg rbx; OReg rax]; EFlush]%string /\
  exists s1 D1, careful_run (fun _ => 0) (fun _ _ => None) (fun _ => false) (fun n => Z.of_nat (new_place lucky n)) (fun w => None)
    (fun _ => []) (fun _ => []) lucky (MState 0 zeros) (fun _ => false) s1 D1 /\ pc s1 = 7%nat /\ reg_of rax s1 = 3.
Proof.
  split; [|split; [reflexivity|]].
  - intros n i ops H. do 8 (destruct n as [|n]; [cbn in H |- *; try discriminate; lia|]). destruct n; discriminate.
  - do 2 eexists. split.
    + do 7 (eapply careful_more; [split; [cbn; intuition (subst; reflexivity || discriminate)|
        cbn; intros r i ops Hr Hi; try discriminate; injection Hr as <-; injection Hi as <- <-; cbn; intuition discriminate]|reflexivity|]).
      apply careful_end.
    + split; reflexivity.
Qed.

(** For every generated program whose calls fit the functions called (which the type
    checker makes sure of; see PeepCalls.v), every machine state, and every run from the
    start of a function in which functions return to their calls: the optimised program
    computes the same.  It follows the whole run: whenever the first program is between
    two instructions that are not written together, the other one is at the corresponding
    place, with the same memory and flags, and with the same registers as far as they
    matter: those that the next instruction or external function reads, a function's
    arguments, and the value of a function that returns one. *)
Theorem C32_generated_programs_partial :
  forall unq alloc ioob entry_fn ts prog P sf laddr extern extern_skips addr place takes gives f s calls1 s1 s',
  gen_program unq alloc ioob entry_fn ts prog start = Some (P, sf) ->
  sound_program takes gives prog alloc ioob entry_fn ->
  extern_fair takes gives extern ->
  nth_error P (pc s) = Some (EFn f) ->
  proper_run laddr extern extern_skips (fun n => addr (new_place P n))
    (fun w => match place w with Some q => old_place P q | None => None end) (program_sites prog) (program_sig prog) P s [] s1 calls1 ->
  joined P (pc s1) = false ->
  pc s' = new_place P (pc s) -> mcore s' = mcore s ->
  exists s1' D, steps laddr extern extern_skips addr place (optimise P) s' s1' /\ follows P D s1 s1' /\
    forall r, In r (matters (program_sites prog) (program_sig prog) takes (snd (program_sig prog f)) P (pc s1) calls1) -> D r = false.
Proof.
  intros unq alloc ioob entry_fn ts prog P sf laddr extern extern_skips addr place takes gives f s calls1 s1 s' G S F E R J1 Hpc Hc.
  set (ks := flat_map fn_ks prog). set (A := fun n => nth n ks ([], false)).
  assert (Hn : NoDup (map fst (program_sigs prog))) by apply S.
  pose proof (program_checks A takes gives prog Hn unq alloc ioob entry_fn ts P sf G S (slice_nth ks)) as C.
  pose proof (fun g => known_found unq alloc ioob entry_fn ts prog P sf g G) as K.
  destruct (sound_run _ _ _ _ _ _ laddr extern extern_skips (fun n => addr (new_place P n))
    (fun w => match place w with Some q => old_place P q | None => None end) P (program_sites prog) K C (snd (program_sig prog f)) s [] s1 calls1 R (fun _ => false)) as (D1 & R1 & I1).
  - eapply inv_fn; [exact E|reflexivity|]. cbn. auto.
  - assert (J : joined P (pc s) = false) by (rewrite <- marked_joined; unfold marked_at; now rewrite E).
    destruct (C32_careful_runs_partial laddr extern extern_skips addr place takes gives P s (fun _ => false) s1 D1 s' F (program_written _ _ _ _ _ _ _ _ G) R1 J) as (s1' & St & Fo).
    + split; [exact Hpc|]. rewrite Hc. destruct (mcore s) as [[rs m] fl]. repeat split; reflexivity.
    + exact J1.
    + exists s1', D1. split; [exact St|]. split; [exact Fo|]. intros r Hr. eapply inv_matters; try eassumption.
Qed.
Print Assumptions C32_generated_programs_partial.


(** Proper runs computed; without calls through variables. *)
Section Go.
Variable laddr : label -> Z.
Variable extern : string -> (reg -> Z) * (Z -> Z) -> option ((reg -> Z) * (Z -> Z)).
Variable skips : string -> bool.
Variable addr : nat -> Z.
Variable place : Z -> option nat.
Variable sites : list site.
Variable sig : string -> signature.
Variable P : list event.
Fixpoint go (k : nat) (s : mstate) (calls : list nat) : option (mstate * list nat) :=
  match k with
  | O => Some (s, calls)
  | S k =>
    match step laddr extern skips addr place P s with
    | None => None
    | Some s1 =>
      match nth_error P (pc s) with
      | Some (EIns call [OFn f]) => match find_fn P f with Some _ => go k s1 (pc s :: calls) | None => None end
      | Some (EIns call [OMem _]) | Some (EIns ret []) => None
      | Some (EIns jmp [OMem _]) =>
        match calls with
        | n :: rest => match Nat.eqb (pc s1) (S (S n)), nth_error P (S n) with true, Some (EAddr _) => go k s1 rest | _, _ => None end
        | [] => None
        end
      | _ => go k s1 calls
      end
    end
  end.
Lemma go_proper k : forall s calls s1 calls1, go k s calls = Some (s1, calls1) ->
  proper_run laddr extern skips addr place sites sig P s calls s1 calls1.
Proof.
  induction k as [|k IH]; intros s calls s1 calls1 H; cbn [go] in H; [injection H as <- <-; constructor|].
  destruct (step laddr extern skips addr place P s) as [s2|] eqn:E; [|discriminate].
  assert (K : exists calls2, keeps skips sites sig P s calls s2 calls2 /\ go k s2 calls2 = Some (s1, calls1)).
  { unfold keeps. destruct (nth_error P (pc s)) as [[i0 ops| | | | | | |]|]; try (exists calls; split; [reflexivity|exact H]).
    destruct i0; try (exists calls; split; [reflexivity|exact H]).
    - destruct ops as [|[] [|]]; try (exists calls; split; [reflexivity|exact H]). destruct calls as [|n rest]; [discriminate|].
      destruct (Nat.eqb (pc s2) (S (S n))) eqn:En; [|discriminate]. apply Nat.eqb_eq in En. destruct (nth_error P (S n)) as [[| | |l| | | |]|] eqn:El; try discriminate.
      exists rest. split; [|exact H]. exists n. eauto.
    - destruct ops; [discriminate|]. exists calls; split; [reflexivity|exact H].
    - destruct ops as [|[] [|]]; try (exists calls; split; [reflexivity|exact H]); try discriminate.
      destruct (find_fn P f); [|discriminate]. eexists. split; [reflexivity|exact H]. }
  destruct K as (calls2 & K & H2). econstructor; [exact E|exact K|now apply IH].
Qed.
Definition at_return (v : Z) (r : option (mstate * list nat)) : bool :=
  match r with
  | Some (s, c) =>
    match nth_error P (pc s) with Some (EIns jmp [OMem _]) => true | _ => false end &&
    negb (joined P (pc s)) && Z.eqb (reg_of rax s) v && match c with [] => true | _ => false end
  | None => false
  end.
Lemma go_return k v s takes : at_return v (go k s []) = true -> exists s1,
  proper_run laddr extern skips addr place sites sig P s [] s1 [] /\
  joined P (pc s1) = false /\ reg_of rax s1 = v /\ In rax (matters sites sig takes true P (pc s1) []).
Proof.
  intros N. destruct (go k s []) as [[s1 c1]|] eqn:G; [|discriminate]. cbn [at_return] in N.
  destruct (nth_error P (pc s1)) as [[i0 ops| | | | | | |]|] eqn:E; try discriminate. destruct i0; try discriminate.
  destruct ops as [|[] [|]]; try discriminate. destruct (joined P (pc s1)) eqn:J; [discriminate|]. cbn [negb andb] in N.
  apply andb_prop in N as [N1 N2]. apply Z.eqb_eq in N1. destruct c1; [|discriminate].
  exists s1. split; [apply (go_proper k); exact G|]. split; [exact J|]. split; [exact N1|].
  unfold matters. rewrite E. apply in_or_app. right. cbn. auto.
Qed.
End Go.

(** The program of GenSample.v: 12 functions, claralloc is external.  The run is that of
    fact(3) up to its return, with two calls; addresses are those of the optimised file. *)
Definition good_ext (f : string) : list reg := if String.eqb f "clara_claralloc" then [rsp; rbp; rax] else [rsp; rbp].
Definition short : list event := optimise sample_file.
Notation old_addr := (fun n => code_addr (new_place sample_file n)) (only parsing).
Notation old_at := (fun w => match code_place w with Some q => old_place sample_file q | None => None end) (only parsing).
Definition fact_start : mstate := MState (sample_fn "clara_fact.int") (entry_regs 7 0, entry_mem (fun _ => 0), None).
Lemma sample_sound : sound_program (fun _ => [rsp; rbp]) good_ext sample_full "clara_claralloc" "clara_ioob.int.int" "clara_main".
Proof.
  split; [|split; [unfold program_sigs; rewrite map_app, map_map; exact sample_names|]].
  - apply Forall_forall. intros fd Hfd.
    repeat (destruct Hfd as [<-|Hfd]; [vm_compute; repeat split; auto; try discriminate; intros x Hx; cbn in *; tauto|]). destruct Hfd.
  - split; cbn; split; intros x Hx; cbn in *; tauto.
Qed.
Lemma sample_fair : extern_fair (fun _ => [rsp; rbp]) good_ext sample_ext.
Proof.
  intros f rs1 m1 rs2 m2 H Hm. unfold sample_ext, good_ext. destruct (String.eqb f "clara_claralloc"); [|exact I]. cbn. split; [|exact Hm].
  intros r Hr. unfold rset. destruct (reg_eqb rax r) eqn:E; [reflexivity|]. apply H. destruct Hr as [<-|[<-|[<-|[]]]]; cbn; auto. discriminate.
Qed.
Example C32_generated_example :
  (exists s, gen_program sample_unq "clara_claralloc" "clara_ioob.int.int" "clara_main" sample_types sample_full start = Some (sample_file, s)) /\
  sound_program (fun _ => [rsp; rbp]) good_ext sample_full "clara_claralloc" "clara_ioob.int.int" "clara_main" /\
  extern_fair (fun _ => [rsp; rbp]) good_ext sample_ext /\
  nth_error sample_file (pc fact_start) = Some (EFn "clara_fact.int") /\
  (exists s1, proper_run (link_label short) sample_ext (String.eqb "clara_claralloc") old_addr old_at
      (program_sites sample_full) (program_sig sample_full) sample_file fact_start [] s1 [] /\
    joined sample_file (pc s1) = false /\ reg_of rax s1 = 13 /\
    In rax (matters (program_sites sample_full) (program_sig sample_full) (fun _ => [rsp; rbp]) true sample_file (pc s1) [])) /\
  List.length sample_file = 599%nat /\ List.length short = 589%nat.
Proof.
  split; [destruct sample_generated as (s & A & _); exists s; exact A|]. split; [exact sample_sound|]. split; [exact sample_fair|].
  split; [vm_compute; reflexivity|]. split; [|split; vm_compute; reflexivity].
  apply (go_return _ _ _ _ _ _ _ _ 125). vm_compute. reflexivity.
Qed.
