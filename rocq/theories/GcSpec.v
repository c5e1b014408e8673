(** What a garbage collection is to do, independently of how gc.clara does it.

    A block is its address and the number of its data bytes; it occupies 8 bytes for
    the address of the next block, 8 bytes for the header, and the data. *)
From Coq Require Import ZArith List Bool.
From Verif Require Import X86 GenSpec GcModel.
Import ListNotations.
Open Scope Z_scope.

Notation block := (Z * Z)%type (only parsing).
Definition data (b : Z) : Z := b + 16.

(** Words that may be addresses: a multiple of 8, over 1024 and below 2^62 (bit 63 is
    not looked at). *)
Definition maybe_pointer (w : Z) : Prop := w mod 8 = 0 /\ 1024 < w mod 2 ^ 63 < 2 ^ 62.

(** A header as a number: type id, and two flags. *)
Definition header_of (id : Z) (ro mark : bool) : Z := id * 2 ^ 47 + (if ro then 2 else 0) + (if mark then 1 else 0).
Definition has_header (h : memory) (b : Z) (id : Z) (ro mark : bool) : Prop :=
  0 <= id < 2 ^ 15 /\ load h (b + 8) = wint (header_of id ro mark).

(** The blocks: within memory, aligned, apart from each other. *)
Definition placed (b : block) : Prop :=
  1024 <= fst b /\ fst b mod 8 = 0 /\ 0 < snd b /\ fst b + 16 + snd b <= 2 ^ 62.
Definition apart_from (b c : block) : Prop :=
  fst b + 16 + snd b <= fst c \/ fst c + 16 + snd c <= fst b.
Definition layout (bs : list block) : Prop :=
  Forall placed bs /\ ForallOrdPairs apart_from bs.
(** A byte that belongs to no block. *)
Definition outside (bs : list block) (x : Z) : Prop := forall b, In b bs -> x < fst b \/ fst b + 16 + snd b <= x.
Definition outside8 (bs : list block) (a : Z) : Prop := forall i, 0 <= i < 8 -> outside bs (a + i).

(** The linked list of blocks. *)
Fixpoint chain (h : memory) (first : Z) (bs : list block) : Prop :=
  match bs with
  | [] => first = 0 \/ first = 1
  | b :: r => first = fst b /\ chain h (load h (fst b)) r
  end.

(** Where an object of a type has pointers. *)
Inductive pointer_at (h : memory) (p : Z) : type_info -> Z -> Prop :=
| at_field : forall roots r, In r roots -> pointer_at h p (StructType roots) (p + 8 * r)
| at_element : forall n i, load h p = wint n -> 0 <= i < n -> pointer_at h p (ArrayType true) (p + 8 + 8 * i).

(** An object fits its type: the pointers are inside the data. *)
Definition inside (b : block) (a : Z) : Prop := data (fst b) <= a /\ a + 8 <= data (fst b) + snd b.
Definition fits_type (h : memory) (b : block) (info : type_info) : Prop :=
  info <> FunctionType /\
  (info = ArrayType true -> inside b (data (fst b)) /\ exists n, 0 <= n < 2 ^ 61 /\ load h (data (fst b)) = wint n) /\
  forall a, pointer_at h (data (fst b)) info a -> inside b a.

Section Heap.
Variable table : list type_info.
Variable h : memory.
Variable bs : list block.
(** The words the collection starts from. *)
Variable root : Z -> Prop.

Definition typed (b : block) (info : type_info) : Prop :=
  exists id, has_header h (fst b) id false false /\ nth_error table (Z.to_nat id) = Some info /\ fits_type h b info.

(** The words that can be reached. *)
Inductive reach : Z -> Prop :=
| reach_root : forall w, root w -> reach w
| reach_pointer : forall b info a, In b bs -> reach (data (fst b)) -> typed b info ->
    pointer_at h (data (fst b)) info a -> reach (load h a).

(** Constants: read-only objects outside of the blocks. *)
Definition constant (w : Z) : Prop :=
  exists id mark, has_header h (w - 16) id true mark /\ (Z.to_nat id < length table)%nat /\ outside8 bs (w - 8).
(** All that can be reached are objects, constants, and words that are no pointers. *)
Definition sound_heap : Prop :=
  forall w, reach w -> maybe_pointer w ->
    (16 <= w < 2 ^ 62 /\ constant w) \/ exists b info, In b bs /\ w = data (fst b) /\ typed b info.
Definition unmarked (b : block) : Prop := exists id, has_header h (fst b) id false false.
End Heap.

(** The GC map of a frame: at the return address is the address of an array of offsets. *)
Definition gc_map (h : memory) (bs : list block) (fp : Z) (offs : list Z) : Prop :=
  let ret := load h (fp + 8) in let arr := load h ret in
  outside8 bs (fp + 8) /\ outside8 bs ret /\ outside8 bs arr /\ 0 <= fp /\ fp + 16 <= 2 ^ 64 /\
  load h arr = wint (Z.of_nat (length offs)) /\ arr + 8 + 8 * Z.of_nat (length offs) <= 2 ^ 64 /\ (Z.of_nat (length offs) < 2 ^ 62) /\
  forall i o, nth_error offs i = Some o -> load h (arr + 8 + 8 * Z.of_nat i) = wint o /\ 0 <= o < 2 ^ 57 /\ outside8 bs (arr + 8 + 8 * Z.of_nat i).

(** The frames from [fp] to the base, with the slots their maps list: the map found in a
    frame is that of its caller's frame. *)
Inductive frames (h : memory) (bs : list block) (base : Z) : Z -> list Z -> Prop :=
| frames_base : frames h bs base base []
| frames_next : forall fp offs slots, fp <> base -> gc_map h bs fp offs -> outside8 bs fp ->
    (forall o, In o offs -> 0 <= load h fp - 8 * o /\ outside8 bs (load h fp - 8 * o)) ->
    frames h bs base (load h fp) slots ->
    frames h bs base fp (map (fun o => load h fp - 8 * o) offs ++ slots).
