(** The places of the tokens of expressions that are written in strings ([example_with = "..."], [skip_serializing_if = "..."]):
    opg_derive/src/attr.rs:591-616.

    Tokens are those of proc_macro2, with their places (spans).  Reading tokens from text ([syn::parse_str] as a [TokenStream])
    and parsing tokens ([syn::parse2]) are arguments. *)
From Verif Require Export Str.

(** a span; compilers show errors there and look names up as if they were written there *)
Definition place := N.
Inductive delimiter := Parenthesis | Braces | Brackets | Invisible.
(** an operator is a row of [Punct], each joint to the next *)
Inductive token :=
| Ident (name : str) (p : place)
| Punct (c : N) (joint : bool) (p : place)
| Literal (text : str) (p : place)
| Group (d : delimiter) (stream : list token) (p : place).

Section Respan.
  (** [Span::call_site()] *)
  Variable call_site : place.

  (** proc_macro2 [Group::new]: a group stands at the call site until it is told otherwise *)
  Definition group_new (d : delimiter) (stream : list token) : token := Group d stream call_site.
  (** proc_macro2 [TokenTree::set_span]: of the token itself, not of those inside *)
  Definition set_span (p : place) (t : token) : token :=
    match t with
    | Ident name _ => Ident name p
    | Punct c joint _ => Punct c joint p
    | Literal text _ => Literal text p
    | Group d stream _ => Group d stream p
    end.
  (** attr.rs:611-616 [respan_token_tree] (and 604-609 [respan_token_stream] inside it) *)
  Fixpoint respan_token_tree (p : place) (t : token) : token :=
    set_span p (match t with Group d stream _ => group_new d (map (respan_token_tree p) stream) | _ => t end).
  (** attr.rs:604-609 *)
  Definition respan_token_stream (stream : list token) (p : place) : list token := map (respan_token_tree p) stream.

  (** [syn::parse_str::<TokenStream>]: fails where the text is not made of tokens *)
  Variable lex : str -> option (list token).
  (** attr.rs:599-602; a string literal is its value and its place *)
  Definition spanned_tokens (value : str) (p : place) : option (list token) :=
    match lex value with Some stream => Some (respan_token_stream stream p) | None => None end.
  (** attr.rs:591-597 *)
  Definition parse_lit_str {T} (parse2 : list token -> option T) (value : str) (p : place) : option T :=
    match spanned_tokens value p with Some tokens => parse2 tokens | None => None end.
End Respan.
