(** What a JSON serializer requires of what it is told (C76): the keys of mappings are strings or numbers.  serde_json turns
    numbers, names of unit variants and newtype structs around them into strings, and fails on other keys. *)
From Verif Require Import Str Serde.

Inductive json_key : told -> Prop :=
| jk_str s : json_key (ToStr s)
| jk_num n : json_key (ToU16 n)
| jk_variant s : json_key (ToUnitVariant s)
| jk_newtype t : json_key t -> json_key (ToNewtype t).

(** every mapping in it has such keys *)
Inductive json_writable : told -> Prop :=
| jw_str s : json_writable (ToStr s)
| jw_bool b : json_writable (ToBool b)
| jw_num n : json_writable (ToU16 n)
| jw_none : json_writable ToNone
| jw_some t : json_writable t -> json_writable (ToSome t)
| jw_newtype t : json_writable t -> json_writable (ToNewtype t)
| jw_variant s : json_writable (ToUnitVariant s)
| jw_seq l : (forall t, In t l -> json_writable t) -> json_writable (ToSeq l)
| jw_map l : (forall k t, In (k, t) l -> json_key k /\ json_writable t) -> json_writable (ToMap l)
| jw_struct l : (forall n t, In (n, t) l -> json_writable t) -> json_writable (ToStruct l).
