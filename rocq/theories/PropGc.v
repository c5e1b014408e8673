(** Properties C37-C40: garbage collections, object headers, what is taken for a pointer,
    and the type information table.  Statements use GcModel (the code) and GcSpec. *)
From Coq Require Import ZArith List Bool Lia String.
From Verif Require Import Ints X86 GenModel GenSpec GenMem GcModel GcSpec GcHeader GcMark GcSweep InfoModel InfoProofs.
Import ListNotations.
Open Scope Z_scope.
Ltac Zify.zify_post_hook ::= Z.div_mod_to_equations.

(* ------------------------------------------------------------------------ C37 *)

(** C37: whatever the blocks and what they point to (cycles and sharing included), the
    frames and the runtime object, a collection ends; it frees exactly the blocks that
    cannot be reached from the slots listed by the frames' maps and from the runtime
    object, each once; the others stay in the list, in order, with header (hence
    unmarked) and data as they were; nothing outside of the blocks changes.  [free] may
    write into the block it is given. *)
Theorem C37_collection : forall table free h bs base fp runtime head slots,
  layout bs -> chain h head bs -> Forall (unmarked h) bs -> frames h bs base fp slots ->
  sound_heap table h bs (roots_from h slots runtime) ->
  (forall m b x, In b bs -> x < fst b \/ fst b + 16 + snd b <= x -> free m (fst b) x = m x) ->
  exists n, forall fuel rounds, (n <= fuel)%nat -> (n <= rounds)%nat ->
  exists keep h' head',
    gc table free fuel rounds h base fp runtime head = Done (h', head', rev (map fst (filter (fun b => negb (keep b)) bs))) /\
    (forall b, In b bs -> keep b = true <-> reach table h bs (roots_from h slots runtime) (data (fst b))) /\
    chain h' head' (filter keep bs) /\
    (forall b, In b (filter keep bs) -> load h' (fst b + 8) = load h (fst b + 8) /\
       forall x, data (fst b) <= x < data (fst b) + snd b -> h' x = h x) /\
    (forall x, outside bs x -> h' x = h x).
Proof. exact collect. Qed.
Print Assumptions C37_collection.

(** Allocation puts a new block with its type id, unmarked, in front of the list. *)
Theorem C37_allocation : forall h bs head b size id,
  layout ((b, size) :: bs) -> chain h head bs -> is_word head -> Forall (unmarked h) bs -> 0 <= id < 2 ^ 15 ->
  exists h', claralloc h head b size id = Done (h', b, b + 16) /\
    chain h' b ((b, size) :: bs) /\ has_header h' b id false false /\ Forall (unmarked h') ((b, size) :: bs) /\
    forall x, x < b \/ b + 16 <= x -> h' x = h x.
Proof.
  intros h bs head b size id Lay Ch Wh Un Hid.
  assert (Pb := place _ Lay (b, size) (or_introl eq_refl)). cbn [fst snd] in Pb.
  assert (Vb : is_valid_block b = true).
  { unfold is_valid_block, ival. rewrite signed_small by lia. apply negb_true_iff, Z.eqb_neq. lia. }
  assert (Ap : forall c, In c bs -> b + 16 + size <= fst c \/ fst c + 16 + snd c <= b).
  { intros c Ic. destruct (apart _ Lay (b, size) c (or_introl eq_refl) (or_intror Ic)) as [<-|A]; [|exact A].
    exfalso. pose proof (chain_nodup _ Lay) as N. inversion N; subst. contradiction. }
  unfold claralloc. destruct (Z.eqb_spec size 0); [lia|]. rewrite Vb. cbn [negb].
  unfold set_header, set_next. rewrite (word_id (b + 8)), (word_id (b + 16)) by (unfold is_word; lia).
  eexists. split; [reflexivity|]. rewrite (new_header_of id Hid).
  set (h' := store (store h (b + 8) (wint (header_of id false false))) b head).
  assert (Hn : has_header h' b id false false).
  { split; [exact Hid|]. unfold h'. rewrite load_store_other by lia. rewrite load_store_same. apply word_id, wint_range. }
  assert (Ot : forall x, x < b \/ b + 16 <= x -> h' x = h x).
  { intros x Hx. unfold h'. rewrite !store_other by lia. reflexivity. }
  assert (Ld : forall c, In c bs -> load h' (fst c) = load h (fst c) /\ load h' (fst c + 8) = load h (fst c + 8)).
  { intros c Ic. pose proof (Ap c Ic). pose proof (place _ Lay c (or_intror Ic)). split; apply load_ext; intros i Hi; apply Ot; lia. }
  split; [|split; [exact Hn|split; [|exact Ot]]].
  - cbn [chain fst]. split; [reflexivity|]. replace (load h' b) with head by (unfold h'; rewrite load_store_same; symmetry; apply word_id, Wh).
    apply (chain_ext h); [|exact Ch]. intros c Ic. apply Ld, Ic.
  - constructor; [exists id; exact Hn|]. apply Forall_forall. intros c Ic. destruct (proj1 (Forall_forall _ _) Un c Ic) as [i [R E]].
    exists i. split; [exact R|]. rewrite (proj2 (Ld c Ic)). exact E.
Qed.
Print Assumptions C37_allocation.

(** Three objects of a type with two pointers: 2048 and 4096 point to each other, 2048
    also to a constant at 12288, 8192 is garbage that points to 2048. *)
Definition g_table : list type_info := [StringType; StructType [0; 1]].
Definition g_blocks : list (Z * Z) := [(8192, 16); (2048, 16); (4096, 16)].
Definition g_write (l : list (Z * Z)) : memory := fold_right (fun av h => store h (fst av) (snd av)) (fun _ => 0) l.
Definition g_memory : memory := g_write
  [(8192, 2048); (8200, wint (header_of 1 false false)); (8208, 2064); (8216, 1);
   (2048, 4096); (2056, wint (header_of 1 false false)); (2064, 4112); (2072, 12288);
   (4096, 0); (4104, wint (header_of 1 false false)); (4112, 2064); (4120, wint 7);
   (12280, wint (header_of 0 true false));
   (20000, 20104); (20008, 21000); (21000, 22000); (22000, wint 1); (22008, wint 2); (20088, 2064)].
Definition g_free (h : memory) (b : Z) : memory := store h b 99.

Lemma g_apart : Forall placed g_blocks /\ ForallOrdPairs apart_from g_blocks.
Proof.
  split.
  - repeat constructor; vm_compute; intuition discriminate.
  - repeat constructor; unfold apart_from; cbn; lia.
Qed.
Lemma g_outside a : a = 12280 \/ 20000 <= a -> outside8 g_blocks a.
Proof. intros H i Hi b [<-|[<-|[<-|[]]]]; cbn; lia. Qed.
Lemma g_typed b : In b g_blocks -> typed g_table g_memory b (StructType [0; 1]).
Proof.
  intros Hb. exists 1. split; [|split; [reflexivity|]].
  - split; [vm_compute; intuition discriminate|]. destruct Hb as [<-|[<-|[<-|[]]]]; vm_compute; reflexivity.
  - split; [discriminate|]. split; [discriminate|]. intros a Ha. inversion Ha as [roots r Hr|]; subst.
    destruct Hb as [<-|[<-|[<-|[]]]]; destruct Hr as [<-|[<-|[]]]; unfold inside, data; cbn [fst snd]; lia.
Qed.
Example C37_example :
  layout g_blocks /\ chain g_memory 8192 g_blocks /\ Forall (unmarked g_memory) g_blocks /\
  frames g_memory g_blocks 20104 20000 [20088] /\ sound_heap g_table g_memory g_blocks (roots_from g_memory [20088] 0) /\
  (forall m b x, In b g_blocks -> x < fst b \/ fst b + 16 + snd b <= x -> g_free m (fst b) x = m x) /\
  match gc g_table g_free 9 9 g_memory 20104 20000 0 8192 with
  | Done (h', head', freed) => head' = 2048 /\ freed = [8192] /\ load h' 4112 = 2064
  | _ => False
  end.
Proof.
  split; [exact g_apart|]. split; [vm_compute; auto|].
  split; [apply Forall_forall; intros b Hb; destruct (g_typed b Hb) as [id [Hid _]]; exists id; exact Hid|].
  split; [|split; [|split; [|vm_compute; auto]]].
  - replace [20088] with (map (fun o => load g_memory 20000 - 8 * o) [2] ++ []) by (vm_compute; reflexivity). apply frames_next.
    + discriminate.
    + unfold gc_map. cbv zeta. replace (load g_memory (20000 + 8)) with 21000 by (vm_compute; reflexivity).
      replace (load g_memory 21000) with 22000 by (vm_compute; reflexivity).
      split; [apply g_outside; lia|]. split; [apply g_outside; lia|]. split; [apply g_outside; lia|]. split; [lia|]. split; [lia|].
      split; [vm_compute; reflexivity|]. split; [cbn; lia|]. split; [cbn; lia|].
      intros [|[|i]] o E; inversion E; subst. split; [vm_compute; reflexivity|]. split; [vm_compute; intuition discriminate|].
      apply g_outside. lia.
    + apply g_outside. lia.
    + intros o [<-|[]]. replace (load g_memory 20000) with 20104 by (vm_compute; reflexivity). split; [lia|apply g_outside; lia].
    + replace (load g_memory 20000) with 20104 by (vm_compute; reflexivity). apply frames_base.
  - intros w R. assert (Ws : w = 0 \/ w = 2064 \/ w = 4112 \/ w = 12288 \/ w = wint 7).
    { induction R as [w [->|[a [[<-|[]] ->]]]|b info a Ib Rb IH T Pa]; [auto|right; left; vm_compute; reflexivity|].
      assert (info = StructType [0; 1]) as ->.
      { destruct T as [id [[R1 E1] [N1 _]]]. destruct (g_typed b Ib) as [id' [[R2 E2] [N2 _]]].
        assert (id = id'); [|congruence]. rewrite E1 in E2. apply (f_equal ival) in E2. rewrite !ival_wint, !wrap_id in E2 by (apply header_int; assumption).
        apply (f_equal type_id) in E2. rewrite !type_id_header in E2. exact E2. }
      inversion Pa as [roots r Hr|]; subst.
      destruct Ib as [<-|[<-|[<-|[]]]]; unfold data in IH; cbn [fst] in IH;
        [destruct IH as [IH|[IH|[IH|[IH|IH]]]]; discriminate IH| |];
        destruct Hr as [<-|[<-|[]]]; vm_compute; auto. }
    intros [Mp1 Mp2]. destruct Ws as [->|[->|[->|[->| ->]]]].
    + vm_compute in Mp2. destruct Mp2; discriminate.
    + right. exists (2048, 16), (StructType [0; 1]). split; [right; left; reflexivity|]. split; [reflexivity|apply g_typed; right; left; reflexivity].
    + right. exists (4096, 16), (StructType [0; 1]). split; [right; right; left; reflexivity|]. split; [reflexivity|apply g_typed; right; right; left; reflexivity].
    + left. split; [vm_compute; intuition discriminate|]. exists 0, false. split; [split; [vm_compute; intuition discriminate|vm_compute; reflexivity]|].
      split; [cbn; lia|apply g_outside; lia].
    + vm_compute in Mp1. discriminate.
  - intros m b x Hb Hx. unfold g_free. apply store_other. destruct Hb as [<-|[<-|[<-|[]]]]; cbn [fst snd] in *; lia.
Qed.

(* ------------------------------------------------------------------------ C38 *)

(** C38, for type ids below 2^15: the header made at allocation (or by the compiler, for
    constants) says which type id it was made for, whether the object is read-only, and
    whether it is marked; marking and unmarking change only the last. *)
Theorem C38_headers_partial : forall id (ro : bool), 0 <= id < 2 ^ 15 ->
  (if ro then read_only_header id else new_header id) = header_of id ro false /\
  forall mark, type_id (header_of id ro mark) = id /\ read_only (header_of id ro mark) = ro /\ marked (header_of id ro mark) = mark /\
    with_mark (header_of id ro false) = header_of id ro true /\ without_mark (header_of id ro true) = header_of id ro false.
Proof.
  intros id ro H. split; [destruct ro; [apply read_only_header_is|apply new_header_of]; exact H|]. intros m.
  split; [apply type_id_header|]. split; [apply read_only_header_of|]. split; [apply marked_header|]. split; [apply with_mark_header|apply without_mark_header].
Qed.
Print Assumptions C38_headers_partial.

(** Any sequence of setMark and clearMark that does not panic, in memory. *)
Theorem C38_sequences_partial : forall h b id ro m, 0 <= b < 2 ^ 63 -> has_header h b id ro m ->
  forall ops : list bool,
  forall h', fold_left (fun o op => match o with Done h => if op : bool then set_mark h b else clear_mark h b | o => o end) ops (Done h) = Done h' ->
  exists m', has_header h' b id ro m' /\ type_id (header h' b) = id /\ read_only (header h' b) = ro /\ marked (header h' b) = m'.
Proof.
  intros h b id ro m Hb Hh ops. change (2 ^ 63) with 9223372036854775808 in Hb.
  assert (Wb : word (b + 8) = b + 8) by (apply word_id; unfold is_word; lia).
  assert (Hv : forall h m, has_header h b id ro m -> header h b = header_of id ro m).
  { intros h1 m1 [R E]. unfold header. rewrite Wb, E, ival_wint. apply wrap_id, header_int, R. }
  assert (St : forall h m m1, has_header h b id ro m -> has_header (set_header h b (header_of id ro m1)) b id ro m1).
  { intros h1 m1 m2 [R E]. split; [exact R|]. unfold set_header. rewrite Wb, load_store_same. apply word_id, wint_range. }
  revert h m Hh. induction ops as [|op ops IH]; intros h m Hh h' E; cbn [fold_left] in E.
  - inversion E; subst. exists m. split; [exact Hh|]. rewrite (Hv _ _ Hh), type_id_header, read_only_header_of, marked_header. auto.
  - assert (Dead : forall (o : outcome memory) l, (forall x, o <> Done x) -> fold_left (fun o op => match o with Done h => if op : bool then set_mark h b else clear_mark h b | o => o end) l o <> Done h').
    { intros o l. induction l as [|op' l IHl]; intros Hn; [apply Hn|]. cbn. destruct o; [exfalso; eapply Hn; reflexivity| | |]; apply IHl, Hn. }
    destruct op.
    + unfold set_mark in E. rewrite (Hv _ _ Hh), marked_header in E. destruct m; [exfalso; eapply Dead; [|exact E]; discriminate|].
      rewrite with_mark_header in E. exact (IH _ _ (St h false true Hh) h' E).
    + unfold clear_mark in E. rewrite (Hv _ _ Hh), marked_header in E. destruct m; cbn [negb] in E; [|exfalso; eapply Dead; [|exact E]; discriminate].
      rewrite without_mark_header in E. exact (IH _ _ (St h true false Hh) h' E).
Qed.
Print Assumptions C38_sequences_partial.

(** A read-only object is not changed by marking, whatever else is in memory.  (That it
    is not freed is C37: only blocks of the list are.) *)
Theorem C38_read_only_unchanged : forall table fuel h p h',
  read_only (header h (word (p - 16))) = true -> mark_pointer table fuel h p = Done h' -> h' = h.
Proof.
  intros table [|fuel] h p h' R E; [discriminate|]. rewrite mark_pointer_step in E. cbv zeta in E. rewrite R in E.
  destruct (is_real p); cbn [negb] in E; [|congruence]. destruct (type_info_at table (type_id (header h (word (p - 16))))); congruence.
Qed.
Print Assumptions C38_read_only_unchanged.

Example C38_example : type_id (new_header 1234) = 1234 /\ read_only (read_only_header 4) = true /\ type_id (with_mark (read_only_header 4)) = 4 /\
  marked (with_mark (new_header 7)) = true /\ without_mark (with_mark (new_header 7)) = new_header 7 /\ header_of 1234 false true = 1234 * 2 ^ 47 + 1.
Proof. vm_compute. repeat constructor. Qed.

(** The header has 16 bits for the type id (the mask is 0xFFFF), but ids from 2^15 on
    are read back as negative numbers. *)
Theorem C38_refuted : type_id (new_header 32768) = -32768.
Proof. reflexivity. Qed.
Print Assumptions C38_refuted.

(* ------------------------------------------------------------------------ C39 *)

(** C39: the collector takes no int and no bool for a pointer, and every 8-byte aligned
    address over 1024 (below 2^62) for one. *)
Theorem C39_pointers : (forall n, is_real (wint n) = false) /\ (forall b, is_real (wbool b) = false) /\
  forall a, a mod 8 = 0 -> 1024 < a < 2 ^ 62 -> is_real a = true.
Proof.
  split; [|split].
  - intros n. destruct (is_real (wint n)) eqn:E; [|reflexivity]. apply is_real_spec in E as [E _]. unfold wint, word in E. lia.
  - intros [|]; reflexivity.
  - change (2 ^ 62) with 4611686018427387904. intros a Ha Hb. apply is_real_spec. unfold maybe_pointer.
    change (2 ^ 63) with 9223372036854775808. change (2 ^ 62) with 4611686018427387904. lia.
Qed.
Print Assumptions C39_pointers.

(** Exactly which words are taken for pointers. *)
Theorem C39_exactly : forall w, is_real w = true <-> w mod 8 = 0 /\ 1024 < w mod 2 ^ 63 < 2 ^ 62.
Proof. exact is_real_spec. Qed.
Print Assumptions C39_exactly.

Example C39_example : is_real 140737488355328 = true /\ is_real (wint 140737488355328) = false /\ is_real 1024 = false /\ is_real 1032 = true.
Proof. vm_compute. repeat constructor. Qed.

(* ------------------------------------------------------------------------ C40 *)

(** C40: for every program and every table the compiler writes for it: each constructor's
    id has an entry, which lists exactly the words of the objects it makes that hold heap
    values; different constructors have different ids; the ids the library and the
    compiler use for bytes, []int, []string, strings, functions and other arrays (1-5, 7)
    have entries that say so; there are no other entries. *)
Theorem C40_entries_describe_types : forall prog table, table_of prog = Some table ->
  (forall tag params id, In (tag, params, id) (constructor_ids prog) ->
     8 <= id /\ exists info, nth_error table (Z.to_nat id) = Some info /\ describes tag params info) /\
  NoDup (map snd (constructor_ids prog)) /\
  firstn 8 table = [StructType []; BytesType; ArrayType false; ArrayType true; StringType; FunctionType; BytesType; ArrayType true] /\
  List.length table = (8 + List.length (constructor_ids prog))%nat.
Proof. intros prog table T. exact (conj (fun tag params id => entry prog table tag params id T) (conj (ids_nodup prog) (conj (table_builtins prog table T) (table_length prog table T)))). Qed.
Print Assumptions C40_entries_describe_types.

(** The constructors with an id are those of the members of enums, of structs, and of
    the two structs of each closure. *)
Theorem C40_constructors : forall prog tag params,
  (exists id, In (tag, params, id) (constructor_ids prog)) <-> declared prog tag params.
Proof. exact in_ids. Qed.
Print Assumptions C40_constructors.

(** A table is written exactly when no enum with members has a type parameter of its own
    name; otherwise the compiler panics. *)
Theorem C40_table_written : forall prog, (exists table, table_of prog = Some table) <->
  forall name ps m ms, In (DEnum name ps (m :: ms)) prog -> ~ In name ps.
Proof.
  intros prog. destruct (existsb shadowed prog) eqn:E; split.
  - intros [t T]. rewrite (table_none prog E) in T. discriminate.
  - intros H. exfalso. apply existsb_exists in E as [d [Hd Sd]]. destruct d as [name ps [|m ms]|fields|ext ls]; try discriminate Sd.
    cbn in Sd. apply existsb_exists in Sd as [x [Hx Ex]]. apply String.eqb_eq in Ex. subst x. exact (H _ _ _ _ Hd Hx).
  - intros _ name ps m ms Hd Hx. assert (T : existsb shadowed prog = true); [|congruence]. apply existsb_exists. exists (DEnum name ps (m :: ms)). split; [exact Hd|].
    cbn. apply existsb_exists. exists name. split; [exact Hx|apply String.eqb_refl].
  - intros _. eexists. exact (table_is prog E).
Qed.
Print Assumptions C40_table_written.

(** enum shape { Empty() Named(n: int, s: string) Both(a: T, b: []int) }, a struct, and a
    function with a closure over a string and an int. *)
Example C40_example :
  let int := Ty TInteger 0 in let str := Ty TString 1 in let arr := Ty TArray 2 in let par := Ty TParameter 3 in
  let fn := Ty TFunction 4 in let env := Ty TStruct 5 in
  let prog := [DFn false [ClosureFn fn env [str; int]]; DStruct [int; int]; DEnum "shape" ["T"%string] [[]; [int; str]; [par; arr]]; DStruct [str; int; arr]] in
  table_of prog = Some [StructType []; BytesType; ArrayType false; ArrayType true; StringType; FunctionType; BytesType; ArrayType true;
    StructType []; StructType [2]; StructType [1; 2]; StructType []; StructType [0; 2]; StructType [0]; StructType [0; 1]] /\
  map snd (constructor_ids prog) = [8; 9; 10; 11; 12; 13; 14].
Proof. vm_compute. auto. Qed.

(** enum opt<opt> { A(x: int) } *)
Theorem C40_table_refuted : table_of [DEnum "opt" ["opt"%string] [[Ty TInteger 0]]] = None.
Proof. reflexivity. Qed.
Print Assumptions C40_table_refuted.
