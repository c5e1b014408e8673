(** The garbage collector: install/lib/gc.clara and mem.clara, over a memory of bytes.
    Integer operations are those of Clara's 63-bit ints (Ints.v); a word of memory seen
    as an int is [ival]. *)
From Coq Require Import ZArith List Bool.
From Verif Require Import Ints X86 GenModel GenSpec.
Import ListNotations.
Open Scope Z_scope.

(** codegen.go:365-370 (toTaggedInt): leaq 1(rdi,rdi), rax; the word [w] as a number. *)
Definition to_tagged_int (w : Z) : Z := word (w + w + 1).

(** gc.clara:107-110 (isReal) *)
Definition is_real (w : Z) : bool :=
  let i := ival (to_tagged_int w) in (iand i 7 =? 0) && (i >? 1024).

(** mem.clara:3-7: struct block, next at 0, header at 8; user data starts at 16. *)
Definition next (h : memory) (b : Z) : Z := load h b.
Definition header (h : memory) (b : Z) : Z := ival (load h (word (b + 8))).
Definition set_next (h : memory) (b v : Z) : memory := store h b v.
Definition set_header (h : memory) (b : Z) (v : Z) : memory := store h (word (b + 8)) (wint v).

(** gc.clara:138-154.  The tests and changes of the header; a header as a number. *)
Definition marked (v : Z) : bool := iand v 1 =? 1.
Definition read_only (v : Z) : bool := iand v 2 =? 2.
Definition type_id (v : Z) : Z := ishr (iand v (ishl 65535 47)) 47.
Definition with_mark (v : Z) : Z := ior v 1.
Definition without_mark (v : Z) : Z := iand v (inot 1).
(** gc.go:12-14 (readOnlyGcHeader) and mem.clara:22: headers of constants and of new
    objects. *)
Definition read_only_header (id : Z) : Z := ior (ishl id 47) 2.
Definition new_header (id : Z) : Z := ishl id 47.

(** gc.clara:115-121 (typeInfo), without names. *)
Inductive type_info :=
| StructType (roots : list Z)
| StringType
| ArrayType (elem_is_pointer : bool)
| FunctionType
| BytesType.

(** How a run of the collector ends.  [BadIndex]: typeInfoTable() indexed out of
    bounds; [NoFuel]: the model's bound on recursion was too small. *)
Inductive outcome (A : Type) := Done (a : A) | Panic | BadIndex | NoFuel.
Arguments Done {A}. Arguments Panic {A}. Arguments BadIndex {A}. Arguments NoFuel {A}.

Section Collector.
(** codegen.go:244-330: the table, compiled into the program. *)
Variable table : list type_info.
Definition type_info_at (i : Z) : option type_info := if i <? 0 then None else nth_error table (Z.to_nat i).

(** gc.clara:138-143 (setMark) and 145-150 (clearMark) *)
Definition set_mark (h : memory) (b : Z) : outcome memory :=
  if marked (header h b) then Panic else Done (set_header h b (with_mark (header h b))).
Definition clear_mark (h : memory) (b : Z) : outcome memory :=
  if negb (marked (header h b)) then Panic else Done (set_header h b (without_mark (header h b))).

(** The ints 0, 1, ..., n-1 (the loop of gc.clara:68 is a range loop: C20). *)
Definition counting (n : Z) : list Z := map Z.of_nat (List.seq 0 (Z.to_nat n)).

(** The addresses whose contents gc.clara:56-76 passes on, in order; None is the panic
    for functions. *)
Definition children (h : memory) (p : Z) (info : type_info) : option (list Z) :=
  match info with
  | StructType roots => Some (map (fun root => word (p + ival (wint (root * 8)))) roots)
  | StringType | BytesType => Some []
  | ArrayType elem_is_pointer =>
      if elem_is_pointer then Some (map (fun i => word (p + ival (wint (8 + i * 8)))) (counting (ival (load h p)))) else Some []
  | FunctionType => None
  end.

(** gc.clara:37-77 (gcMarkPointer); debug output left out. *)
Fixpoint mark_pointer (fuel : nat) (h : memory) (p : Z) {struct fuel} : outcome memory :=
  match fuel with
  | O => NoFuel
  | S fuel =>
    let fix mark_all (h : memory) (l : list Z) {struct l} : outcome memory :=
      match l with
      | [] => Done h
      | a :: r => match mark_pointer fuel h (load h a) with Done h => mark_all h r | o => o end
      end in
    if negb (is_real p) then Done h
    else
      let b := word (p - 16) in
      match type_info_at (type_id (header h b)) with
      | None => BadIndex
      | Some info =>
        if read_only (header h b) then Done h
        else if marked (header h b) then Done h
        else
          match set_mark h b with
          | Done h =>
            match children h p info with
            | None => Panic
            | Some l => mark_all h l
            end
          | o => o
          end
      end
  end.
Fixpoint mark_slots (fuel : nat) (h : memory) (l : list Z) {struct l} : outcome memory :=
  match l with
  | [] => Done h
  | a :: r => match mark_pointer fuel h (load h a) with Done h => mark_slots fuel h r | o => o end
  end.

(** runtime.clara:2-12: frame.next at 0, frame.map at 8 (the return address), the map's
    roots at the return address; gcMap (asm.go:460-470) lays out their number and the
    offsets as tagged ints.  The elements of an int array: *)
Definition int_array (h : memory) (a : Z) : list Z :=
  map (fun i => ival (load h (word (a + 8 + 8 * i)))) (counting (ival (load h a))).
Definition frame_roots (h : memory) (fp : Z) : list Z :=
  int_array h (load h (load h (word (fp + 8)))).
(** gc.clara:33-35 (gcMarkSlot) and runtime.clara:7 (slot) *)
Definition slot (fp off : Z) : Z := word (fp + ival (wint (- off * 8))).

(** gc.clara:11-31 (gcMark): [base] is the stack base, [runtime] the global.  [rounds]
    bounds the number of frames. *)
Fixpoint mark_frames (fuel rounds : nat) (h : memory) (base fp : Z) (roots : list Z) {struct rounds} : outcome memory :=
  if fp =? base then Done h
  else
    match rounds with
    | O => NoFuel
    | S rounds =>
      let fp := load h fp in
      match mark_slots fuel h (map (slot fp) roots) with
      | Done h => mark_frames fuel rounds h base fp (frame_roots h fp)
      | o => o
      end
    end.
Definition gc_mark (fuel rounds : nat) (h : memory) (base fp runtime : Z) : outcome memory :=
  match mark_frames fuel rounds h base fp (frame_roots h fp) with
  | Done h => mark_pointer fuel h runtime
  | o => o
  end.

(** mem.clara:40 (isValidBlock): the word as an int is not 0; mem.clara:41 (emptyBlock)
    is the tagged int 0. *)
Definition is_valid_block (b : Z) : bool := negb (ival b =? 0).
Definition empty_block : Z := wint 0.

(** gc.clara:85-105 (gcSweep).  [head] is what getBlocks returns; free is libc's, which
    may write into what it is given.  The result has the memory, the new list and the
    blocks freed, last first. *)
Variable free : memory -> Z -> memory.
Fixpoint sweep_from (fuel : nat) (h : memory) (head prev b : Z) (freed : list Z) {struct fuel} : outcome (memory * Z * list Z) :=
  if negb (is_valid_block b) then Done (h, head, freed)
  else
    match fuel with
    | O => NoFuel
    | S fuel =>
      if marked (header h b) then
        match clear_mark h b with
        | Done h => sweep_from fuel h head b (next h b) freed
        | Panic => Panic | BadIndex => BadIndex | NoFuel => NoFuel
        end
      else
        let '(h, head) :=
          if is_valid_block prev then (set_next h prev (next h b), head) else (h, next h b) in
        let n := next h b in
        sweep_from fuel (free h b) head prev n (b :: freed)
    end.
Definition gc_sweep (fuel : nat) (h : memory) (head : Z) : outcome (memory * Z * list Z) :=
  sweep_from fuel h head empty_block head [].

(** gc.clara:1-7 (gc) *)
Definition gc (fuel rounds : nat) (h : memory) (base fp runtime head : Z) : outcome (memory * Z * list Z) :=
  match gc_mark fuel rounds h base fp runtime with
  | Done h => gc_sweep fuel h head
  | Panic => Panic | BadIndex => BadIndex | NoFuel => NoFuel
  end.

(** mem.clara:9-30 (claralloc) after the collection: calloc gives [b]; the block is put
    in front of the list. *)
Definition claralloc (h : memory) (head b size id : Z) : outcome (memory * Z * Z) :=
  if size =? 0 then Panic
  else if negb (is_valid_block b) then Panic
  else
    let h := set_header h b (new_header id) in
    let h := set_next h b head in
    Done (h, b, word (b + 16)).
End Collector.
