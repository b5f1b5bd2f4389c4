(** Specification of naming conventions: an identifier is a sequence of words, given here in lower
    case; each convention says how the words are capitalised and joined. *)
From Verif Require Import Case.

Section Words.
  Variable uni_upper : N -> bool.

  (** a character that may occur in a lower-case word *)
  Definition word_char (c : N) : Prop := is_uppercase uni_upper c = false /\ c <> c_underscore /\ c <> c_dash.

  (** a non-empty word of such characters *)
  Definition word (w : str) : Prop := w <> [] /\ Forall word_char w.

  (** ... starting with an ASCII letter *)
  Definition letter_word (w : str) : Prop := word w /\ exists c r, w = c :: r /\ is_ascii_lower c = true.
End Words.

Definition capitalise (w : str) : str :=
  match w with [] => [] | c :: r => ch_upper c :: r end.

Fixpoint join (sep : str) (ws : list str) : str :=
  match ws with
  | [] => []
  | [w] => w
  | w :: ws' => w ++ sep ++ join sep ws'
  end.

(** the identifiers of Rust code: VeryTasty for variants, very_tasty for fields *)
Definition variant_ident (ws : list str) : str := concat (map capitalise ws).
Definition field_ident (ws : list str) : str := join (u "_") ws.

Definition camel (ws : list str) : str :=
  match ws with [] => [] | w :: ws' => w ++ concat (map capitalise ws') end.

(** the conventional spelling of a variant made of words [ws] *)
Definition variant_spelling (r : rename_rule) (ws : list str) : str :=
  match r with
  | RNone => variant_ident ws
  | RLowerCase => concat ws
  | RUpperCase => concat (map to_upper ws)
  | RPascalCase => concat (map capitalise ws)
  | RCamelCase => camel ws
  | RSnakeCase => join (u "_") ws
  | RScreamingSnakeCase => join (u "_") (map to_upper ws)
  | RKebabCase => join (u "-") ws
  | RScreamingKebabCase => join (u "-") (map to_upper ws)
  end.

(** the conventional spelling of a field made of words [ws] (for fields, [lowercase] and [UPPERCASE]
    keep the underscores, as in serde) *)
Definition field_spelling (r : rename_rule) (ws : list str) : str :=
  match r with
  | RNone => field_ident ws
  | RLowerCase => join (u "_") ws
  | RUpperCase => join (u "_") (map to_upper ws)
  | RPascalCase => concat (map capitalise ws)
  | RCamelCase => camel ws
  | RSnakeCase => join (u "_") ws
  | RScreamingSnakeCase => join (u "_") (map to_upper ws)
  | RKebabCase => join (u "-") ws
  | RScreamingKebabCase => join (u "-") (map to_upper ws)
  end.

(** rules that keep word boundaries visible *)
Definition separating (r : rename_rule) : Prop := r <> RLowerCase /\ r <> RUpperCase.

(** one-byte characters *)
Definition is_ascii (c : N) : Prop := (c < 128)%N.

(** the documented spellings of [rename_all] *)
Definition rule_spellings : list (str * rename_rule) :=
  [(u "lowercase", RLowerCase); (u "UPPERCASE", RUpperCase); (u "PascalCase", RPascalCase);
   (u "camelCase", RCamelCase); (u "snake_case", RSnakeCase); (u "SCREAMING_SNAKE_CASE", RScreamingSnakeCase);
   (u "kebab-case", RKebabCase); (u "SCREAMING-KEBAB-CASE", RScreamingKebabCase)].
