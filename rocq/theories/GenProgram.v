(** The whole output of the code generator: the functions of a program, the routines
    every program contains, the type information and the string literals
    (/repo/codegen.go:100-151, 211-431, /repo/asm.go:409-429, /repo/gc.go:62-120). *)
From Coq Require Import ZArith List Bool String Ascii.
From Verif Require Import X86 GenModel.
Import ListNotations.
Open Scope Z_scope.

(* ------------------------------------------------------------- the fixed routines *)

(** codegen.go:325-334 (genRead) *)
Definition gen_read (suffix : string) (scale : Z) : gen :=
  gen_entry ("read" ++ suffix) 0 ;; untag_as TInteger rsi ;;
  ins (if scale =? 1 then movsbq else movq) [OMem (Mem rdi (Some rsi) 0 scale false true); OReg rax] ;;
  gen_exit true.
(** codegen.go:336-348 (genWrite) *)
Definition gen_write (suffix : string) (scale : Z) : gen :=
  gen_entry ("write" ++ suffix) 0 ;; untag_as TInteger rsi ;;
  ins leaq [OMem (Mem rdi (Some rsi) 0 scale false true); OReg rax] ;;
  (if scale =? 1 then ins movb [OReg8 dl; mderef rax] else ins movq [OReg rdx; mderef rax]) ;;
  gen_exit true.
(** codegen.go:350-356 (genFramePointerAccess) *)
Definition gen_frame_pointer : gen :=
  emit (EFn "getFramePointer") ;; ins movq [OReg rbp; OReg rax] ;; ins ret [] ;; emit EFlush.
(** codegen.go:358-363 (genUnsafe) *)
Definition gen_unsafe : gen :=
  gen_entry "unsafe" 0 ;; untag_as TInteger rsi ;; ins leaq [mindex rdi rsi; OReg rax] ;; gen_exit true.
(** codegen.go:365-370 (genToTaggedInt) *)
Definition gen_to_tagged : gen :=
  gen_entry "toTaggedInt" 0 ;; ins leaq [OMem (Mem rdi (Some rdi) 1 0 false true); OReg rax] ;; gen_exit true.
(** codegen.go:372-378 (genToUntaggedInt) *)
Definition gen_to_untagged : gen :=
  gen_entry "toUntaggedInt" 0 ;; ins sarq [OImm 1; OReg rdi] ;; ins movq [OReg rdi; OReg rax] ;; gen_exit true.
(** codegen.go:380-385 (genAsmEntrypoint) *)
Definition gen_asm_entrypoint (entry : string) : gen :=
  gen_entry "clara_asm_entrypoint" 0 ;; tag_as TInteger rdi ;; ins call [OFn entry] ;; gen_exit true.
(** codegen.go:387-392 (genNoGc) *)
Definition gen_no_gc : gen :=
  emit EData ;; emit (ELabel LNoGc) ;; emit (tagged_word 0) ;; emit EData.
(** codegen.go:420-431 (genIoobTrampoline) *)
Definition gen_ioob (ioob : string) : gen :=
  emit EData ;; emit (ELabel LIoob) ;;
  ins andq [OImm (-16); OReg rsp] ;; ins movq [OReg rbx; OReg rdi] ;; tag_as TInteger rdi ;;
  ins movq [mderef rax; OReg rsi] ;; ins call [OFn ioob].

(* --------------------------------------------------------------- type information *)

(** What genTypeInfoTable looks at in the types of gc.go:56-120.  Structs: AsmName and,
    for every field, f.Addr and f.Type.IsPointer().  Enums: a number standing for the
    identity of the *Type, AsmName, and for each member cons.Tag and which parameters
    are pointers.  The text is Type.String() in quotes. *)
Inductive gtype :=
| GStruct (name : string) (text : list Z) (fields : list (Z * bool))
| GEnum (ident : nat) (name : string) (text : list Z) (members : list (Z * list bool))
| GString (text : list Z)
| GArray (text : list Z) (elem_pointer : bool)
| GBytes (text : list Z)
| GFunction (text : list Z).
Definition gtext (t : gtype) : list Z :=
  match t with
  | GStruct _ x _ | GEnum _ _ x _ | GString x | GArray x _ | GBytes x | GFunction x => x
  end.

(** The decimal digits of a number (strconv.Itoa, %v). *)
Definition digit (n : nat) : ascii := ascii_of_nat (48 + n).
Fixpoint digits (fuel n : nat) : string :=
  match fuel with
  | O => EmptyString
  | S f => if Nat.ltb n 10 then String (digit n) EmptyString
           else digits f (n / 10) ++ String (digit (n mod 10)) EmptyString
  end.
Definition dec (n : nat) : string := digits (S n) n.

(** Offsets of the pointers among the parameters of an enum member, after the tag
    (codegen.go:250-255). *)
Fixpoint pointer_slots (i : Z) (l : list bool) : list Z :=
  match l with [] => [] | b :: r => (if b then [i] else []) ++ pointer_slots (i + 1) r end.
(** codegen.go:223-228 *)
Definition pointer_fields (l : list (Z * bool)) : list Z :=
  flat_map (fun f => if snd f : bool then [fst f / 8] else []) l.

(** codegen.go:214-275: the GC maps of the types; the labels of the maps.  [tag] and
    [et] are the variables of the loop. *)
Fixpoint gen_type_maps (ts : list gtype) (tag : nat) (et : option nat) (k : list label -> gen) : gen :=
  match ts with
  | [] => k []
  | t :: rest =>
    match t with
    | GString _ | GArray _ _ | GBytes _ | GFunction _ =>
        gen_type_maps rest 0 et (fun ls => k (LNoGc :: ls))
    | GStruct name _ fields =>
        match pointer_fields fields with
        | [] => gen_type_maps rest tag et (fun ls => k (LNoGc :: ls))
        | offs =>
            let l := LSym ("struct_" ++ name) in
            (fun s => Some (gc_map_data l offs, s)) ;;
            gen_type_maps rest 0 et (fun ls => k (l :: ls))
        end
    | GEnum id name _ members =>
        let tag' := match et with Some e => if Nat.eqb e id then tag else O | None => O end in
        match nth_error members tag' with
        | None => panic
        | Some (ctag, params) =>
          if negb (ctag =? Z.of_nat tag') then panic else
          match pointer_slots 1 params with
          | [] => gen_type_maps rest (S tag') (Some id) (fun ls => k (LNoGc :: ls))
          | offs =>
              let l := LSym ("enum_" ++ name ++ "_tag_" ++ dec tag') in
              (fun s => Some (gc_map_data l offs, s)) ;;
              gen_type_maps rest (S tag') (Some id) (fun ls => k (l :: ls))
          end
        end
    end
  end.

(** codegen.go:278-307: a typeInfo value for each type.  roSymbol (asm.go:453-458)
    hands out the writer behind the peephole optimiser, and w.stringLit there makes the
    literal of the type's name; Print()[1:] is the label with "+8". *)
Definition info_label (i : nat) : label := LSym ("typeInfo_" ++ dec i).
Definition lit_label (o : operand) : label := match o with OAddr l _ => l | _ => LNoGc end.
Fixpoint gen_infos (i : nat) (ts : list gtype) (roots : list label) : gen :=
  match ts, roots with
  | [], _ => nop
  | _, [] => panic
  | t :: rest, r :: roots' =>
    emit (tagged_word 2) ;; emit (ELabel (info_label i)) ;;
    string_lit (gtext t) (fun o =>
      match t with
      | GStruct _ _ _ | GEnum _ _ _ _ =>
          emit (tagged_word 0) ;; emit (EAddr (lit_label o)) ;; emit (EAddr r)
      | GString _ => emit (tagged_word 1)
      | GArray _ p =>
          emit (tagged_word 2) ;; emit (EAddr (lit_label o)) ;; emit (EWord (if p then 1 else 0))
      | GFunction _ => emit (tagged_word 3)
      | GBytes _ => emit (tagged_word 4)
      end) ;;
    gen_infos (S i) rest roots'
  end.
(** codegen.go:309-314: the array of typeInfo values *)
Definition gen_info_array (n : nat) : gen :=
  emit (tagged_word 2) ;; emit (ELabel (LSym "typeInfoArray")) ;; emit (tagged_word (Z.of_nat n)) ;;
  (fun s => Some (map (fun i => EAddr (info_label i)) (List.seq 0 n), s)).
(** codegen.go:211-323 (genTypeInfoTable) *)
Definition gen_type_table (ts : list gtype) : gen :=
  emit EData ;;
  gen_type_maps ts 0 None (gen_infos 0 ts) ;;
  gen_info_array (List.length ts) ;;
  emit EFlush ;;
  gen_entry "typeInfoTable" 0 ;;
  ins movabs [OAddr (LSym "typeInfoArray") 0; OReg rax] ;;
  gen_exit true.

(* ---------------------------------------------------------------- string literals *)

(** gc.go:12-14 (readOnlyGcHeader): (id << 47) | 2 *)
Definition read_only_header (id : Z) : Z := Z.lor (Z.shiftl id 47) 2.
(** asm.go:409-429 (flush).  [unq] is strconv.Unquote; the text between the quotes is
    written as it stands. *)
Fixpoint gen_lits (unq : list Z -> option (list Z)) (n : nat) (l : list (list Z)) : gen :=
  match l with
  | [] => nop
  | s :: r =>
    match unq s with
    | None => panic
    | Some raw =>
      emit EData ;; emit (ELabel (LLit n)) ;; emit (tagged_word (read_only_header 4)) ;;
      emit (tagged_word (Z.of_nat (List.length raw))) ;; emit (EAscii (removelast (tl s) ++ [92; 48])) ;;
      gen_lits unq (S n) r
    end
  end.
Definition gen_flush (unq : list Z -> option (list Z)) : gen := fun s =>
  (emit EData ;; gen_lits unq 0 (g_lits s)) s.

(* -------------------------------------------------------------------- the program *)

(** codegen.go:100-151 (codegen); [ts] are the types of gt after all functions. *)
Definition gen_routines (ioob entry : string) (ts : list gtype) : gen :=
  gen_read "Byte" 1 ;; emit EFlush ;; gen_read "Int" 8 ;; emit EFlush ;;
  gen_write "Byte" 1 ;; emit EFlush ;; gen_write "Int" 8 ;; emit EFlush ;;
  gen_ioob ioob ;; emit EFlush ;; gen_frame_pointer ;; emit EFlush ;;
  gen_unsafe ;; emit EFlush ;; gen_to_tagged ;; emit EFlush ;; gen_to_untagged ;; emit EFlush ;;
  gen_asm_entrypoint entry ;; emit EFlush ;; gen_no_gc ;; emit EFlush ;;
  gen_type_table ts ;; emit EFlush.
Definition gen_program (unq : list Z -> option (list Z)) (alloc ioob entry : string)
  (ts : list gtype) (prog : list fundef) : gen :=
  gen_fns alloc prog ;; gen_routines ioob entry ts ;; gen_flush unq.

(** asm.go:356-363: an empty writer *)
Definition start : gst := Gst 0 [] [] [] [] 0 0 [].

(** The routines every program contains. *)
Definition routine_names : list string :=
  ["readByte"; "readInt"; "writeByte"; "writeInt"; "getFramePointer"; "unsafe"; "toTaggedInt";
   "toUntaggedInt"; "clara_asm_entrypoint"; "typeInfoTable"]%string.
