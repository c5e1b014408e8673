(** The labels of an output file as text (property C33). *)
From Coq Require Import ZArith List Bool String Ascii Lia.
From Verif Require Import X86 GenModel GenProgram GenSpec GenStatic GenSlots GenLabels.
Import ListNotations.
Open Scope string_scope.

(** codegen.go:60, 389, 424, 498-499, 538, 547, 790-791; asm.go:398-407, 431-435: the text of a label *)
Definition prefix_text (p : lprefix) : string :=
  match p with
  | PWhileEnd => "while_end" | PWhileStart => "while_start" | PIfEnd => "if_end" | PElse => "else" | PExit => "exit"
  end.
Definition label_text (l : label) : string :=
  match l with
  | LGen p n => prefix_text p ++ "_" ++ dec n
  | LIoob => "ioob"
  | LNoGc => "_noGc"
  | LMap n => ".SM" ++ dec n
  | LLit n => ".LC" ++ dec n
  | LName s => s
  | LSym s => s
  end.
(** The labels a file defines; fnStart (asm.go:437-443) writes the name of the function. *)
Definition defs (c : list event) : list label :=
  flat_map (fun e => match e with ELabel l => [l] | EFn f => [LName f] | _ => [] end) c.
Definition defined_text (c : list event) : list string := map label_text (defs c).

Lemma acount_defs l c : acount l (defs c) = (lcount l c + match l with LName f => fcount f c | _ => 0 end)%nat.
Proof.
  unfold acount. induction c as [|e c IH]; [now destruct l|]. destruct e; cbn [defs flat_map lcount fcount app]; try exact IH.
  - cbn [filter]. fold (defs c). destruct (label_eqb l l0); cbn [List.length]; rewrite IH; lia.
  - cbn [filter]. fold (defs c). destruct l as [| | | | |s|]; cbn [label_eqb]; try exact IH.
    destruct (String.eqb s f); cbn [List.length]; rewrite IH; lia.
Qed.
Lemma acount_le_nodup D : (forall l, acount l D <= 1)%nat -> NoDup D.
Proof.
  induction D as [|x D IH]; intros H; constructor.
  - intros Hin. apply acount_in in Hin. specialize (H x). unfold acount in *. cbn in H. rewrite label_eqb_refl in H. cbn in H. lia.
  - apply IH. intros l. specialize (H l). unfold acount in *. cbn in H. destruct (label_eqb l x); cbn in H; lia.
Qed.
Lemma nodup_map_on {A B} (f : A -> B) l : (forall a b, In a l -> In b l -> f a = f b -> a = b) -> NoDup l -> NoDup (map f l).
Proof.
  intros Hf. induction 1 as [|x l Hx _ IH]; cbn; constructor.
  - intros Hi. apply in_map_iff in Hi as (y & E & Hy). apply Hf in E; [now subst|now right|now left].
  - apply IH. intros a b Ha Hb. apply Hf; now right.
Qed.

(** The labels there are. *)
Inductive usual : label -> Prop :=
| U_gen p n : usual (LGen p n)
| U_ioob : usual LIoob
| U_nogc : usual LNoGc
| U_map n : usual (LMap n)
| U_lit n : usual (LLit n)
| U_struct s : usual (LSym ("struct_" ++ s))
| U_enum s : usual (LSym ("enum_" ++ s))
| U_info n : usual (LSym ("typeInfo_" ++ dec n))
| U_array : usual (LSym "typeInfoArray")
| U_fn s : s <> "asm_entrypoint" -> usual (LName ("clara_" ++ s))
| U_routine s : In s routine_names -> usual (LName s).

Ltac differ H :=
  exfalso; first
  [ apply (f_equal (get 0)) in H; cbn in H; discriminate H
  | apply (f_equal (get 1)) in H; cbn in H; discriminate H
  | apply (f_equal (get 2)) in H; cbn in H; discriminate H
  | apply (f_equal (get 6)) in H; cbn in H; discriminate H
  | apply (f_equal (get 8)) in H; cbn in H; discriminate H ].
Ltac differs := match goal with H : @eq string _ _ |- _ => solve [differ H | symmetry in H; differ H] end.
Ltac routines := repeat match goal with
  | R : In _ routine_names |- _ => cbn in R; decompose [or False] R; clear R; subst
  end.

Lemma label_text_inj a b : usual a -> usual b -> label_text a = label_text b -> a = b.
Proof.
  intros Ha Hb H. destruct Ha as [p n| | |n|n|s|s|n| |s|s Hs], Hb as [p' n'| | |n'|n'|s'|s'|n'| |s'|s' Hs'];
    cbn [label_text] in H; try reflexivity.
  all: try solve [destruct p; differ H].
  all: try solve [destruct p'; differ H].
  all: try solve [differ H].
  all: try solve [apply app_prefix_inj, dec_inj in H; subst; reflexivity].
  all: try solve [routines; differs].
  all: try solve [routines; destruct p; differs].
  all: try solve [routines; destruct p'; differs].
  all: try exact (f_equal LSym H).
  all: try exact (f_equal LName H).
  - destruct p, p'; try differ H; do 2 apply app_prefix_inj in H; apply dec_inj in H; now subst.
Qed.

Lemma in_defs_count l c : In l (defs c) <-> (1 <= acount l (defs c))%nat.
Proof. split; [apply acount_in|apply acount_in']. Qed.
Lemma defs_usual unq alloc ioob entry ts prog c s' :
  gen_program unq alloc ioob entry ts prog start = Some (c, s') ->
  (forall f, In f (map f_name prog) -> exists r, f = "clara_" ++ r /\ r <> "asm_entrypoint") ->
  forall l, In l (defs c) -> usual l.
Proof.
  intros H Hn l Hl. apply chunk_program in H as [_ _ _ k fn _ _]. apply in_defs_count in Hl. rewrite acount_defs in Hl. specialize (k l).
  assert (Hin : (1 <= acount l (([LIoob; LNoGc] ++ table_labels ts) ++ literal_labels s'))%nat ->
    l = LIoob \/ l = LNoGc \/ In l (table_labels ts) \/ In l (literal_labels s')).
  { intros G. apply acount_in' in G. apply in_app_iff in G as [G|G]; [|auto]. apply in_app_iff in G as [[G|[G|[]]]|G]; auto. }
  assert (Ht : In l (table_labels ts) -> usual l).
  { intros G. unfold table_labels in G. apply in_app_iff in G as [G|G].
    - unfold map_labels in G. destruct (type_roots ts 0 None) as [roots|] eqn:E; [|destruct G]. apply filter_In in G as [G _].
      destruct (named_roots _ _ _ _ _ E G) as [->|[[m ->]|[m ->]]]; constructor.
    - apply in_app_iff in G as [G|[<-|[]]]; [|constructor]. apply in_map_iff in G as (i & <- & _). constructor. }
  destruct l as [p n| | |n|n|f|f]; try (constructor; fail).
  - rewrite k in Hl. destruct (Nat.eq_dec (fcount f c) 0) as [Z|Z].
    + rewrite Z, Nat.add_0_r in Hl. destruct (Hin Hl) as [G|[G|[G|G]]]; try discriminate; [auto|]. apply in_map_iff in G as (i & G & _). discriminate.
    + rewrite fn in Z. assert (G : In f (map f_name prog ++ routine_names)) by (apply (count_occ_In string_dec); lia).
      apply in_app_iff in G as [G|G]; [|now constructor]. destruct (Hn f G) as (r & -> & Hr). now constructor.
  - rewrite Nat.add_0_r, k in Hl. destruct (Hin Hl) as [G|[G|[G|G]]]; try discriminate; [auto|]. apply in_map_iff in G as (i & G & _). discriminate.
Qed.

(** All labels of a file differ, provided the names of the functions differ. *)
Lemma program_texts unq alloc ioob entry ts prog c s' :
  gen_program unq alloc ioob entry ts prog start = Some (c, s') ->
  NoDup (map f_name prog) -> NoDup (map_labels ts) ->
  (forall f, In f (map f_name prog) -> exists r, f = "clara_" ++ r /\ r <> "asm_entrypoint") ->
  NoDup (defined_text c).
Proof.
  intros H Hf Hm Hn. unfold defined_text. apply nodup_map_on.
  - intros a b Ha Hb. apply label_text_inj; eapply defs_usual; eauto.
  - apply acount_le_nodup. intros l. rewrite acount_defs. pose proof (program_unique _ _ _ _ _ _ _ _ Hm H l) as U.
    destruct l as [| | | | |f|]; try lia. pose proof (chunk_program _ _ _ _ _ _ _ _ _ H) as [_ _ _ k fn _ _].
    specialize (k (LName f)). cbn beta iota in k. rewrite k, fn.
    assert (A : acount (LName f) (([LIoob; LNoGc] ++ table_labels ts) ++ literal_labels s') = 0%nat).
    { destruct (acount _ _) eqn:E; [reflexivity|]. exfalso. assert (G : (1 <= acount (LName f) (([LIoob; LNoGc] ++ table_labels ts) ++ literal_labels s'))%nat) by lia.
      apply acount_in' in G. rewrite !in_app_iff in G. destruct G as [[[G|[G|[]]]|G]|G]; try discriminate.
      - unfold table_labels in G. rewrite !in_app_iff in G. destruct G as [G|[G|[G|[]]]]; try discriminate.
        + unfold map_labels in G. destruct (type_roots ts 0 None) as [roots|] eqn:E'; [|destruct G]. apply filter_In in G as [G _].
          destruct (named_roots _ _ _ _ _ E' G) as [G'|[[m G']|[m G']]]; discriminate.
        + apply in_map_iff in G as (i & G & _). discriminate.
      - apply in_map_iff in G as (i & G & _). discriminate. }
    rewrite A. cbn. apply NoDup_count_occ. apply nodup_app; [exact Hf| |].
    + repeat constructor; cbn; intuition discriminate.
    + intros x Hx Hr. destruct (Hn x Hx) as (r & -> & Hne). cbn in Hr. decompose [or False] Hr; try differs.
      match goal with E : _ = _ |- _ => apply (app_prefix_inj "clara_" "asm_entrypoint" r) in E; now apply Hne end.
Qed.
Lemma jump_defined unq alloc ioob entry ts prog c s' i l :
  gen_program unq alloc ioob entry ts prog start = Some (c, s') ->
  In (EIns i [OLab l]) c -> In (label_text l) (defined_text c).
Proof.
  intros H Hj. apply in_map. apply in_defs_count. rewrite acount_defs.
  pose proof (program_jumps _ _ _ _ _ _ _ _ H l (ex_intro _ i Hj)). lia.
Qed.
