(** Model of opg_derive/src/case.rs: rename rules. *)
From Verif Require Export Str.

(** case.rs:8-30 [RenameRule] *)
Inductive rename_rule :=
| RNone | RLowerCase | RUpperCase | RPascalCase | RCamelCase | RSnakeCase | RScreamingSnakeCase
| RKebabCase | RScreamingKebabCase.

(** [&s[..1]] and [&s[1..]]: [None] is the panic when byte 1 is past the end of the string or not on a
    character boundary. *)
Definition split_first_byte (s : str) : option (str * str) :=
  match s with
  | c :: rest => if Nat.eqb (utf8_len c) 1 then Some ([c], rest) else None
  | [] => None
  end.

(** [s[..1].to_ascii_lowercase() + &s[1..]] (case.rs:39, 80) *)
Definition lower_first_byte (s : str) : option str :=
  match split_first_byte s with
  | Some (h, t) => Some (to_lower h ++ t)
  | None => None
  end.

Section Case.
  (** [char::is_uppercase] on characters outside ASCII (the Unicode property [Uppercase]). *)
  Variable uni_upper : N -> bool.

  (** [char::is_uppercase] (std) *)
  Definition is_uppercase (c : N) : bool := if (c <? 128)%N then is_ascii_upper c else uni_upper c.

  (** case.rs:41-48; [pos] is false for the first character, whose index is 0 *)
  Fixpoint snake_variant (pos : bool) (s : str) : str :=
    match s with
    | [] => []
    | ch :: rest => (if pos && is_uppercase ch then [c_underscore] else []) ++ ch_lower ch :: snake_variant true rest
    end.

  (** case.rs:34-56 [apply_to_variant]; [None] is a panic *)
  Definition apply_to_variant (r : rename_rule) (variant : str) : option str :=
    match r with
    | RNone | RPascalCase => Some variant
    | RLowerCase => Some (to_lower variant)
    | RUpperCase => Some (to_upper variant)
    | RCamelCase => lower_first_byte variant
    | RSnakeCase => Some (snake_variant false variant)
    | RScreamingSnakeCase => Some (to_upper (snake_variant false variant))
    | RKebabCase => Some (replace_char c_underscore c_dash (snake_variant false variant))
    | RScreamingKebabCase => Some (replace_char c_underscore c_dash (to_upper (snake_variant false variant)))
    end.

  (** case.rs:64-76 *)
  Fixpoint pascal_field (capitalize : bool) (s : str) : str :=
    match s with
    | [] => []
    | ch :: rest =>
        if N.eqb ch c_underscore then pascal_field true rest
        else if capitalize then ch_upper ch :: pascal_field false rest
        else ch :: pascal_field capitalize rest
    end.

  (** case.rs:59-86 [apply_to_field]; [None] is a panic *)
  Definition apply_to_field (r : rename_rule) (field : str) : option str :=
    match r with
    | RNone | RLowerCase | RSnakeCase => Some field
    | RUpperCase => Some (to_upper field)
    | RPascalCase => Some (pascal_field true field)
    | RCamelCase => lower_first_byte (pascal_field true field)
    | RScreamingSnakeCase => Some (to_upper field)
    | RKebabCase => Some (replace_char c_underscore c_dash field)
    | RScreamingKebabCase => Some (replace_char c_underscore c_dash (to_upper field))
    end.
End Case.

(** case.rs:92-104 [from_str] *)
Definition rule_from_str (s : str) : option rename_rule :=
  if str_eqb s (u "lowercase") then Some RLowerCase
  else if str_eqb s (u "UPPERCASE") then Some RUpperCase
  else if str_eqb s (u "PascalCase") then Some RPascalCase
  else if str_eqb s (u "camelCase") then Some RCamelCase
  else if str_eqb s (u "snake_case") then Some RSnakeCase
  else if str_eqb s (u "SCREAMING_SNAKE_CASE") then Some RScreamingSnakeCase
  else if str_eqb s (u "kebab-case") then Some RKebabCase
  else if str_eqb s (u "SCREAMING-KEBAB-CASE") then Some RScreamingKebabCase
  else None.
