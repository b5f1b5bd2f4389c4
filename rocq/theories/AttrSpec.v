(** Specification of attributes: what each documented form means, which forms are malformed, and when a
    list of attributes is acceptable.  Uses only the syntax trees and the type of settings of Attr.v. *)
From Verif Require Import Attr CaseSpec.
From Coq Require Permutation.

(** the one-word path [w] *)
Definition ident (w : string) : path := {| pa_colon := false; pa_segs := [u w] |}.

(** [w = literal], [w(items)], [w] *)
Definition name_value (w : string) (l : lit) : nested := NMeta (MNameValue (ident w) l).
Definition list_item (w : string) (items : list nested) : nested := NMeta (MList (ident w) items).
Definition word_item (w : string) : nested := NMeta (MPath (ident w)).

(** [rename(serialize = "a", deserialize = "b")]: the strings given for serialisation *)
Inductive serialize_strings : list nested -> list str -> Prop :=
| ss_nil : serialize_strings [] []
| ss_ser s l ss : serialize_strings l ss -> serialize_strings (name_value "serialize" (LStr s) :: l) (s :: ss)
| ss_odd l ss : serialize_strings l ss -> serialize_strings (name_value "serialize" LOther :: l) ss
| ss_de x l ss : serialize_strings l ss -> serialize_strings (name_value "deserialize" x :: l) ss.

Definition is_container (p : position) : Prop := exists k, p = PContainer k.
(** positions where [rename_all] is a known serde attribute *)
Definition has_children (p : position) : Prop := is_container p \/ p = PVariant.
(** positions that can be skipped *)
Definition skippable (p : position) : Prop := p = PVariant \/ p = PField.
Definition can_be_nullable (p : position) : Prop := is_container p \/ p = PField.

Section Meaning.
  (** which texts are Rust expressions and paths *)
  Variable is_expr is_path : str -> bool.

  (** What an item of an [#[opg(..)]], [#[serde(..)]] or [#[repr(..)]] list says. *)
  Inductive says : position -> attr_from -> nested -> setting -> Prop :=
  | say_rename p s : says p FromSerde (name_value "rename" (LStr s)) (SRename s)
  | say_rename_list p items s : serialize_strings items [s] -> says p FromSerde (list_item "rename" items) (SRename s)
  | say_rename_all p s r : has_children p -> In (s, r) rule_spellings ->
      says p FromSerde (name_value "rename_all" (LStr s)) (SRenameAll r)
  | say_rename_all_list p items s r : has_children p -> serialize_strings items [s] -> In (s, r) rule_spellings ->
      says p FromSerde (list_item "rename_all" items) (SRenameAll r)
  | say_transparent k : says (PContainer k) FromSerde (word_item "transparent") STransparent
  | say_untagged : says (PContainer DkEnum) FromSerde (word_item "untagged") SUntagged
  | say_tag k s : k <> DkOther -> says (PContainer k) FromSerde (name_value "tag" (LStr s)) (STag s)
  | say_content s : says (PContainer DkEnum) FromSerde (name_value "content" (LStr s)) (SContent s)
  | say_skip p : skippable p -> says p FromSerde (word_item "skip") SSkip
  | say_skip_serializing p : skippable p -> says p FromSerde (word_item "skip_serializing") SSkip
  | say_skip_if s : is_path s = true -> says PField FromSerde (name_value "skip_serializing_if" (LStr s)) SSkipIf
  | say_flatten : says PField FromSerde (word_item "flatten") SFlatten
  | say_description p s : says p FromOpg (NLit (LStr s)) (SDescription s)
  | say_format p s : says p FromOpg (name_value "format" (LStr s)) (SFormat s)
  | say_example p s : says p FromOpg (name_value "example" (LStr s)) (SExample (ExLit s))
  | say_example_with p s : is_expr s = true -> says p FromOpg (name_value "example_with" (LStr s)) (SExample (ExCode s))
  | say_inline p : says p FromOpg (word_item "inline") SInline
  | say_nullable p : can_be_nullable p -> says p FromOpg (word_item "nullable") SNullable
  | say_optional : says PField FromOpg (word_item "optional") SOptional
  | say_string p : says p FromOpg (word_item "string") (SType ETString)
  | say_number p : says p FromOpg (word_item "number") (SType ETNumber)
  | say_integer p : says p FromOpg (word_item "integer") (SType ETInteger)
  | say_boolean p : says p FromOpg (word_item "boolean") (SType ETBoolean)
  | say_any p : says p FromOpg (word_item "any") (SType ETAny)
  | say_repr k n : says (PContainer k) FromRepr n SRepr.

  (** the words known in [#[opg(..)]] *)
  Definition opg_words (p : position) : list string :=
    ["string"; "number"; "integer"; "boolean"; "any"; "inline"]%string ++
    match p with
    | PContainer _ => ["nullable"]%string
    | PVariant => []
    | PField => ["nullable"; "optional"]%string
    end.
  (** the keys known in [#[opg(key = "..")]] *)
  Definition opg_keys : list string := ["format"; "example"; "example_with"]%string.

  (** An item of an [#[opg(..)]] list that is not documented *)
  Inductive unknown_opg (pos : position) : nested -> Prop :=
  | uo_word p : (forall w, In w (opg_words pos) -> p <> ident w) -> unknown_opg pos (NMeta (MPath p))
  | uo_key p l : (forall w, In w opg_keys -> p <> ident w) -> unknown_opg pos (NMeta (MNameValue p l))
  | uo_list p items : unknown_opg pos (NMeta (MList p items)).

  (** An item that is rejected. *)
  Inductive malformed (pos : position) : attr_from -> nested -> Prop :=
  | mal_opg_value w : In w opg_keys -> malformed pos FromOpg (name_value w LOther)
  | mal_rename_value : malformed pos FromSerde (name_value "rename" LOther)
  | mal_rename_all_value : has_children pos -> malformed pos FromSerde (name_value "rename_all" LOther)
  | mal_skip_if_value : pos = PField -> malformed pos FromSerde (name_value "skip_serializing_if" LOther)
  | mal_expr s : is_expr s = false -> malformed pos FromOpg (name_value "example_with" (LStr s))
  | mal_path s : pos = PField -> is_path s = false -> malformed pos FromSerde (name_value "skip_serializing_if" (LStr s))
  | mal_renames items a b ss : serialize_strings items (a :: b :: ss) -> malformed pos FromSerde (list_item "rename" items)
  | mal_rename_alls items a b ss : has_children pos -> serialize_strings items (a :: b :: ss) ->
      malformed pos FromSerde (list_item "rename_all" items)
  | mal_unknown n : unknown_opg pos n -> malformed pos FromOpg n.

  (** the keys known in [#[serde(..)]] *)
  Definition serde_keys (p : position) : list string :=
    match p with
    | PContainer _ => ["rename"; "rename_all"; "transparent"; "untagged"; "tag"; "content"]%string
    | PVariant => ["rename"; "rename_all"; "skip"; "skip_serializing"]%string
    | PField => ["rename"; "skip"; "skip_serializing"; "skip_serializing_if"; "flatten"]%string
    end.
  Definition meta_path (m : meta) : path := match m with MPath p | MNameValue p _ | MList p _ => p end.
  Inductive unknown_serde (pos : position) : nested -> Prop :=
  | us_lit l : unknown_serde pos (NLit l)
  | us_meta m : (forall w, In w (serde_keys pos) -> meta_path m <> ident w) -> unknown_serde pos (NMeta m).

  (** ** Lists of attributes *)

  (** where an attribute's items belong *)
  Inductive belongs (a : attribute) : attr_from -> Prop :=
  | bel_opg : at_path a = ident "opg" -> belongs a FromOpg
  | bel_serde : at_path a = ident "serde" -> belongs a FromSerde
  | bel_repr : at_path a = ident "repr" -> belongs a FromRepr.
  Definition foreign (a : attribute) : Prop := forall f, ~ belongs a f.

  (** the items written in a list of attributes, in order; attributes of other crates do not count; there is
      no such list if an attribute is not of the form [#[name(..)]] *)
  Inductive written : list attribute -> list (attr_from * nested) -> Prop :=
  | wr_nil : written [] []
  | wr_foreign a l its : foreign a -> written l its -> written (a :: l) its
  | wr_items a f items l its : belongs a f -> at_meta a = PmList items -> written l its ->
      written (a :: l) (map (fun n => (f, n)) items ++ its).

  (** the setting [x] is among those said *)
  Definition said (pos : position) (l : list attribute) (x : setting) : Prop :=
    exists its f n, written l its /\ In (f, n) its /\ says pos f n x.

  (** the attribute a setting is a value of *)
  Inductive key :=
  | KRename | KRenameAll | KTransparent | KUntagged | KTag | KContent | KRepr | KSkip | KSkipIf | KFlatten
  | KOptional | KDescription | KFormat | KExample | KInline | KNullable | KType.
  Definition key_of (x : setting) : key :=
    match x with
    | SRename _ => KRename | SRenameAll _ => KRenameAll | STransparent => KTransparent | SUntagged => KUntagged
    | STag _ => KTag | SContent _ => KContent | SRepr => KRepr | SSkip => KSkip | SSkipIf => KSkipIf
    | SFlatten => KFlatten | SOptional => KOptional | SDescription _ => KDescription | SFormat _ => KFormat
    | SExample _ => KExample | SInline => KInline | SNullable => KNullable | SType _ => KType
    end.

  (** two items set the same attribute *)
  Definition repeated (pos : position) (its : list (attr_from * nested)) : Prop :=
    exists l1 f1 n1 l2 f2 n2 l3 x y, its = l1 ++ (f1, n1) :: l2 ++ (f2, n2) :: l3 /\
      says pos f1 n1 x /\ says pos f2 n2 y /\ key_of x = key_of y.

  (** every attribute is a list, no item is malformed, nothing is set twice *)
  Definition acceptable (pos : position) (l : list attribute) : Prop :=
    exists its, written l its /\ (forall f n, In (f, n) its -> ~ malformed pos f n) /\ ~ repeated pos its.

  (** [opt] holds the value said with [mk], or nothing was said *)
  Definition takes {T} (pos : position) (l : list attribute) (mk : T -> setting) (opt : option T) : Prop :=
    forall v, opt = Some v <-> said pos l (mk v).
  Definition flag_takes (pos : position) (l : list attribute) (x : setting) (b : bool) : Prop :=
    b = true <-> said pos l x.

  (** lists with the same items, ordered and grouped in any way *)
  Definition rearranged (l1 l2 : list attribute) : Prop :=
    exists its1 its2, written l1 its1 /\ written l2 its2 /\ Permutation.Permutation its1 its2.

  (** [its2] is [its1] without some serde items satisfying [P] *)
  Inductive drops (P : nested -> Prop) : list (attr_from * nested) -> list (attr_from * nested) -> Prop :=
  | du_nil : drops P [] []
  | du_keep it l1 l2 : drops P l1 l2 -> drops P (it :: l1) (it :: l2)
  | du_drop n l1 l2 : P n -> drops P l1 l2 -> drops P ((FromSerde, n) :: l1) l2.
  Definition without (P : nested -> Prop) (l1 l2 : list attribute) : Prop :=
    exists its1 its2, written l1 its1 /\ written l2 its2 /\ drops P its1 its2.
  Definition without_unknown (pos : position) : list attribute -> list attribute -> Prop := without (unknown_serde pos).

  (** a [rename_all] naming no rule *)
  Inductive unknown_rule : nested -> Prop :=
  | ur_value s : (forall r, ~ In (s, r) rule_spellings) -> unknown_rule (name_value "rename_all" (LStr s))
  | ur_list items s : serialize_strings items [s] -> (forall r, ~ In (s, r) rule_spellings) ->
      unknown_rule (list_item "rename_all" items).
End Meaning.
