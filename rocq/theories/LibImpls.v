(** The invocations of [impl_opg_model!] in opg/src/lib.rs, as token trees, each with the type it is for as a function of
    the generic arguments ([K] aside).  The file is transcribed by a script; the comments give the lines. *)
From Verif Require Import Syntax Gen.
Local Open Scope string_scope. Local Open Scope list_scope.

Definition none (t : ty) (args : list ty) : option ty := match args with [] => Some t | _ => None end.
Definition one (f : ty -> ty) (args : list ty) : option ty := match args with [t] => Some (f t) | _ => None end.
Definition tuple (n : nat) (args : list ty) : option ty := if Nat.eqb (length args) n then Some (TTuple args) else None.

(** lib.rs:75-88: [array_impls!], without the feature const_generics *)
Definition array_impl (n : N) : list tree * (list ty -> option ty) :=
  ([tk_id "generic_array"; tk_pu ":"; TkGr Bracket [tk_id "T"; tk_pu ";"; TkLit (TlInt n)]], one (TSeq (KArray n))).
Definition array_lengths : list N := map N.of_nat (seq 1 32).

(** lib.rs:13-73, 117-118 *)
Definition single_impls : list (list tree * (list ty -> option ty)) := [
  (* 13 *) ([tk_id "string"; TkGr Paren [tk_id "always_inline"; tk_pu ","; tk_str "char"]; tk_pu ":"; tk_id "char"], none (TPrim PChar));
  (* 14 *) ([tk_id "string"; TkGr Paren [tk_id "always_inline"]; tk_pu ":"; tk_id "str"], none (TPrim PStr));
  (* 15 *) ([tk_id "string"; TkGr Paren [tk_id "always_inline"]; tk_pu ":"; tk_id "String"], none (TPrim PString));
  (* 17 *) ([tk_id "integer"; TkGr Paren [tk_id "always_inline"; tk_pu ","; tk_str "int8"]; tk_pu ":"; tk_id "i8"], none (TPrim PI8));
  (* 18 *) ([tk_id "integer"; TkGr Paren [tk_id "always_inline"; tk_pu ","; tk_str "uint8"]; tk_pu ":"; tk_id "u8"], none (TPrim PU8));
  (* 19 *) ([tk_id "integer"; TkGr Paren [tk_id "always_inline"; tk_pu ","; tk_str "int16"]; tk_pu ":"; tk_id "i16"], none (TPrim PI16));
  (* 20 *) ([tk_id "integer"; TkGr Paren [tk_id "always_inline"; tk_pu ","; tk_str "uint16"]; tk_pu ":"; tk_id "u16"], none (TPrim PU16));
  (* 21 *) ([tk_id "integer"; TkGr Paren [tk_id "always_inline"; tk_pu ","; tk_str "int32"]; tk_pu ":"; tk_id "i32"], none (TPrim PI32));
  (* 22 *) ([tk_id "integer"; TkGr Paren [tk_id "always_inline"; tk_pu ","; tk_str "uint32"]; tk_pu ":"; tk_id "u32"], none (TPrim PU32));
  (* 23 *) ([tk_id "integer"; TkGr Paren [tk_id "always_inline"; tk_pu ","; tk_str "int64"]; tk_pu ":"; tk_id "i64"], none (TPrim PI64));
  (* 24 *) ([tk_id "integer"; TkGr Paren [tk_id "always_inline"; tk_pu ","; tk_str "uint64"]; tk_pu ":"; tk_id "u64"], none (TPrim PU64));
  (* 25 *) ([tk_id "integer"; TkGr Paren [tk_id "always_inline"]; tk_pu ":"; tk_id "isize"], none (TPrim PIsize));
  (* 26 *) ([tk_id "integer"; TkGr Paren [tk_id "always_inline"]; tk_pu ":"; tk_id "usize"], none (TPrim PUsize));
  (* 28 *) ([tk_id "number"; TkGr Paren [tk_id "always_inline"; tk_pu ","; tk_str "float"]; tk_pu ":"; tk_id "f32"], none (TPrim PF32));
  (* 29 *) ([tk_id "number"; TkGr Paren [tk_id "always_inline"; tk_pu ","; tk_str "double"]; tk_pu ":"; tk_id "f64"], none (TPrim PF64));
  (* 31 *) ([tk_id "boolean"; TkGr Paren [tk_id "always_inline"]; tk_pu ":"; tk_id "bool"], none (TPrim PBool));
  (* 33 *) ([tk_id "integer"; TkGr Paren [tk_id "always_inline"; tk_pu ","; tk_str "int8"]; tk_pu ":"; tk_id "std"; tk_pu "::"; tk_id "sync"; tk_pu "::"; tk_id "atomic"; tk_pu "::"; tk_id "AtomicI8"], none (TPrim PAtomicI8));
  (* 34 *) ([tk_id "integer"; TkGr Paren [tk_id "always_inline"; tk_pu ","; tk_str "uint8"]; tk_pu ":"; tk_id "std"; tk_pu "::"; tk_id "sync"; tk_pu "::"; tk_id "atomic"; tk_pu "::"; tk_id "AtomicU8"], none (TPrim PAtomicU8));
  (* 35 *) ([tk_id "integer"; TkGr Paren [tk_id "always_inline"; tk_pu ","; tk_str "int16"]; tk_pu ":"; tk_id "std"; tk_pu "::"; tk_id "sync"; tk_pu "::"; tk_id "atomic"; tk_pu "::"; tk_id "AtomicI16"], none (TPrim PAtomicI16));
  (* 36 *) ([tk_id "integer"; TkGr Paren [tk_id "always_inline"; tk_pu ","; tk_str "uint16"]; tk_pu ":"; tk_id "std"; tk_pu "::"; tk_id "sync"; tk_pu "::"; tk_id "atomic"; tk_pu "::"; tk_id "AtomicU16"], none (TPrim PAtomicU16));
  (* 37 *) ([tk_id "integer"; TkGr Paren [tk_id "always_inline"; tk_pu ","; tk_str "int32"]; tk_pu ":"; tk_id "std"; tk_pu "::"; tk_id "sync"; tk_pu "::"; tk_id "atomic"; tk_pu "::"; tk_id "AtomicI32"], none (TPrim PAtomicI32));
  (* 38 *) ([tk_id "integer"; TkGr Paren [tk_id "always_inline"; tk_pu ","; tk_str "uint32"]; tk_pu ":"; tk_id "std"; tk_pu "::"; tk_id "sync"; tk_pu "::"; tk_id "atomic"; tk_pu "::"; tk_id "AtomicU32"], none (TPrim PAtomicU32));
  (* 39 *) ([tk_id "integer"; TkGr Paren [tk_id "always_inline"; tk_pu ","; tk_str "int64"]; tk_pu ":"; tk_id "std"; tk_pu "::"; tk_id "sync"; tk_pu "::"; tk_id "atomic"; tk_pu "::"; tk_id "AtomicI64"], none (TPrim PAtomicI64));
  (* 40 *) ([tk_id "integer"; TkGr Paren [tk_id "always_inline"; tk_pu ","; tk_str "uint64"]; tk_pu ":"; tk_id "std"; tk_pu "::"; tk_id "sync"; tk_pu "::"; tk_id "atomic"; tk_pu "::"; tk_id "AtomicU64"], none (TPrim PAtomicU64));
  (* 41 *) ([tk_id "integer"; TkGr Paren [tk_id "always_inline"]; tk_pu ":"; tk_id "std"; tk_pu "::"; tk_id "sync"; tk_pu "::"; tk_id "atomic"; tk_pu "::"; tk_id "AtomicIsize"], none (TPrim PAtomicIsize));
  (* 42 *) ([tk_id "integer"; TkGr Paren [tk_id "always_inline"]; tk_pu ":"; tk_id "std"; tk_pu "::"; tk_id "sync"; tk_pu "::"; tk_id "atomic"; tk_pu "::"; tk_id "AtomicUsize"], none (TPrim PAtomicUsize));
  (* 44 *) ([tk_id "boolean"; TkGr Paren [tk_id "always_inline"]; tk_pu ":"; tk_id "std"; tk_pu "::"; tk_id "sync"; tk_pu "::"; tk_id "atomic"; tk_pu "::"; tk_id "AtomicBool"], none (TPrim PAtomicBool));
  (* 46 *) ([tk_id "generic_simple"; TkGr Paren [tk_pu "?"; tk_id "Sized"]; tk_pu ":"; tk_pu "&"; tk_id "T"], one (TWrap WRef));
  (* 47 *) ([tk_id "generic_simple"; TkGr Paren [tk_pu "?"; tk_id "Sized"]; tk_pu ":"; tk_pu "&"; tk_id "mut"; tk_id "T"], one (TWrap WRefMut));
  (* 48 *) ([tk_id "generic_simple"; TkGr Paren [tk_pu "?"; tk_id "Sized"]; tk_pu ":"; tk_id "Box"; tk_pu "<"; tk_id "T"; tk_pu ">"], one (TWrap WBox));
  (* 49 *) ([tk_id "generic_simple"; TkGr Paren [tk_pu "?"; tk_id "Sized"]; tk_pu ":"; tk_id "std"; tk_pu "::"; tk_id "rc"; tk_pu "::"; tk_id "Rc"; tk_pu "<"; tk_id "T"; tk_pu ">"], one (TWrap WRc));
  (* 50 *) ([tk_id "generic_simple"; TkGr Paren [tk_pu "?"; tk_id "Sized"]; tk_pu ":"; tk_id "std"; tk_pu "::"; tk_id "sync"; tk_pu "::"; tk_id "Arc"; tk_pu "<"; tk_id "T"; tk_pu ">"], one (TWrap WArc));
  (* 51 *) ([tk_id "generic_simple"; TkGr Paren [tk_pu "?"; tk_id "Sized"]; tk_pu ":"; tk_id "std"; tk_pu "::"; tk_id "cell"; tk_pu "::"; tk_id "Cell"; tk_pu "<"; tk_id "T"; tk_pu ">"], one (TWrap WCell));
  (* 52 *) ([tk_id "generic_simple"; TkGr Paren [tk_pu "?"; tk_id "Sized"]; tk_pu ":"; tk_id "std"; tk_pu "::"; tk_id "cell"; tk_pu "::"; tk_id "RefCell"; tk_pu "<"; tk_id "T"; tk_pu ">"], one (TWrap WRefCell));
  (* 54 *) ([tk_id "generic_simple"; TkGr Paren [tk_id "nullable"]; tk_pu ":"; tk_id "Option"; tk_pu "<"; tk_id "T"; tk_pu ">"], one TOption);
  (* 56 *) ([tk_id "generic_simple"; tk_pu ":"; TkGr Paren [tk_id "T"; tk_pu ","]], one (TWrap WTuple1));
  (* 58 *) ([tk_id "generic_tuple"; tk_pu ":"; TkGr Paren [tk_id "T1"; tk_pu ","; tk_id "T2"]], tuple 2);
  (* 59 *) ([tk_id "generic_tuple"; tk_pu ":"; TkGr Paren [tk_id "T1"; tk_pu ","; tk_id "T2"; tk_pu ","; tk_id "T3"]], tuple 3);
  (* 60 *) ([tk_id "generic_tuple"; tk_pu ":"; TkGr Paren [tk_id "T1"; tk_pu ","; tk_id "T2"; tk_pu ","; tk_id "T3"; tk_pu ","; tk_id "T4"]], tuple 4);
  (* 61 *) ([tk_id "generic_tuple"; tk_pu ":"; TkGr Paren [tk_id "T1"; tk_pu ","; tk_id "T2"; tk_pu ","; tk_id "T3"; tk_pu ","; tk_id "T4"; tk_pu ","; tk_id "T5"]], tuple 5);
  (* 62 *) ([tk_id "generic_tuple"; tk_pu ":"; TkGr Paren [tk_id "T1"; tk_pu ","; tk_id "T2"; tk_pu ","; tk_id "T3"; tk_pu ","; tk_id "T4"; tk_pu ","; tk_id "T5"; tk_pu ","; tk_id "T6"]], tuple 6);
  (* 63 *) ([tk_id "generic_tuple"; tk_pu ":"; TkGr Paren [tk_id "T1"; tk_pu ","; tk_id "T2"; tk_pu ","; tk_id "T3"; tk_pu ","; tk_id "T4"; tk_pu ","; tk_id "T5"; tk_pu ","; tk_id "T6"; tk_pu ","; tk_id "T7"]], tuple 7);
  (* 64 *) ([tk_id "generic_tuple"; tk_pu ":"; TkGr Paren [tk_id "T1"; tk_pu ","; tk_id "T2"; tk_pu ","; tk_id "T3"; tk_pu ","; tk_id "T4"; tk_pu ","; tk_id "T5"; tk_pu ","; tk_id "T6"; tk_pu ","; tk_id "T7"; tk_pu ","; tk_id "T8"]], tuple 8);
  (* 65 *) ([tk_id "generic_tuple"; tk_pu ":"; TkGr Paren [tk_id "T1"; tk_pu ","; tk_id "T2"; tk_pu ","; tk_id "T3"; tk_pu ","; tk_id "T4"; tk_pu ","; tk_id "T5"; tk_pu ","; tk_id "T6"; tk_pu ","; tk_id "T7"; tk_pu ","; tk_id "T8"; tk_pu ","; tk_id "T9"]], tuple 9);
  (* 66 *) ([tk_id "generic_tuple"; tk_pu ":"; TkGr Paren [tk_id "T1"; tk_pu ","; tk_id "T2"; tk_pu ","; tk_id "T3"; tk_pu ","; tk_id "T4"; tk_pu ","; tk_id "T5"; tk_pu ","; tk_id "T6"; tk_pu ","; tk_id "T7"; tk_pu ","; tk_id "T8"; tk_pu ","; tk_id "T9"; tk_pu ","; tk_id "T10"]], tuple 10);
  (* 68 *) ([tk_id "generic_array"; tk_pu ":"; TkGr Bracket [tk_id "T"]], one (TSeq KSlice));
  (* 69 *) ([tk_id "generic_array"; tk_pu ":"; tk_id "Vec"; tk_pu "<"; tk_id "T"; tk_pu ">"], one (TSeq KVec));
  (* 70 *) ([tk_id "generic_array"; tk_pu ":"; tk_id "std"; tk_pu "::"; tk_id "collections"; tk_pu "::"; tk_id "HashSet"; tk_pu "<"; tk_id "T"; tk_pu ">"], one (TSeq KHashSet));
  (* 71 *) ([tk_id "generic_array"; tk_pu ":"; tk_id "std"; tk_pu "::"; tk_id "collections"; tk_pu "::"; tk_id "LinkedList"; tk_pu "<"; tk_id "T"; tk_pu ">"], one (TSeq KLinkedList));
  (* 72 *) ([tk_id "generic_array"; tk_pu ":"; tk_id "std"; tk_pu "::"; tk_id "collections"; tk_pu "::"; tk_id "VecDeque"; tk_pu "<"; tk_id "T"; tk_pu ">"], one (TSeq KVecDeque));
  (* 73 *) ([tk_id "generic_array"; tk_pu ":"; tk_id "std"; tk_pu "::"; tk_id "collections"; tk_pu "::"; tk_id "BinaryHeap"; tk_pu "<"; tk_id "T"; tk_pu ">"], one (TSeq KBinaryHeap));
  (* 117 *) ([tk_id "generic_dictionary"; tk_pu ":"; tk_id "std"; tk_pu "::"; tk_id "collections"; tk_pu "::"; tk_id "HashMap"; tk_pu "<"; tk_id "K"; tk_pu ","; tk_id "T"; tk_pu ">"], one (TDict KHashMap));
  (* 118 *) ([tk_id "generic_dictionary"; tk_pu ":"; tk_id "std"; tk_pu "::"; tk_id "collections"; tk_pu "::"; tk_id "BTreeMap"; tk_pu "<"; tk_id "K"; tk_pu ","; tk_id "T"; tk_pu ">"], one (TDict KBTreeMap))].
Definition lib_impls : list (list tree * (list ty -> option ty)) := single_impls ++ map array_impl array_lengths.
