(** Expressions written in strings: C83. *)
From Verif Require Import Respan RespanSpec RespanFacts.
Local Open Scope string_scope. Local Open Scope list_scope.

(** * C83: Expressions in string attributes stand where the string stands *)

(** The tokens of the string are those that its value consists of, and every one, however deep inside groups, has the place of
    the string.  There are none if and only if the value does not consist of tokens. *)
Theorem C83_tokens : forall call_site lex value p,
  (spanned_tokens call_site lex value p = None <-> lex value = None) /\
  forall l, spanned_tokens call_site lex value p = Some l ->
    (exists l0, lex value = Some l0 /\ Forall2 same_text l0 l) /\ forall q, stands_at l q -> q = p.
Proof. intros. split; [apply tokens_fail|apply tokens_spanned]. Qed.

(** So what is parsed from the string, by any parser that takes its places from the tokens, has no other place in it: whatever
    the compiler has to say about any part of it, it shows the string. *)
Theorem C83_errors_point_at_string : forall call_site lex T (parse : list token -> option T) places value p e,
  keeps_places parse places -> parse_lit_str call_site lex parse value p = Some e -> forall q, places e q -> q = p.
Proof. exact @expression_places. Qed.

(** And it says what the value of the string says: where the string stands does not matter to whether it is accepted, nor to what
    it is read as. *)
Theorem C83_same_expression : forall call_site lex T X (parse : list token -> option T) (text : T -> X) value p,
  reads_text parse text ->
  option_map text (parse_lit_str call_site lex parse value p) =
  match lex value with Some l => option_map text (parse l) | None => None end.
Proof. exact @expression_text. Qed.

(** [make(|x| vec![x; 2])], read with every token at a place of its own; the parser keeps all tokens, if there are any. *)
Definition case_tokens : list token :=
  [Ident (u "make") 1;
   Group Parenthesis
     [Punct 124 false 3; Ident (u "x") 4; Punct 124 false 5; Ident (u "vec") 6; Punct 33 false 7;
      Group Brackets [Ident (u "x") 9; Punct 59 false 10; Literal (u "2") 11] 8] 2]%N.
Definition case_parse (l : list token) : option (list token) := match l with [] => None | _ => Some l end.
Definition case_lex (s : str) : option (list token) := if str_eqb s (u "make(|x| vec![x; 2])") then Some case_tokens else None.
Definition case_text (l : list token) : nat := length l.
Example C83_case :
  keeps_places case_parse stands_at /\ reads_text case_parse case_text /\
  parse_lit_str 0%N case_lex case_parse (u "make(|x| vec![x; 2])") 70%N =
    Some [Ident (u "make") 70;
          Group Parenthesis
            [Punct 124 false 70; Ident (u "x") 70; Punct 124 false 70; Ident (u "vec") 70; Punct 33 false 70;
             Group Brackets [Ident (u "x") 70; Punct 59 false 70; Literal (u "2") 70] 70] 70]%N /\
  stands_at case_tokens 11%N /\ parse_lit_str 0%N case_lex case_parse (u "'") 70%N = None.
Proof.
  split; [intros [|t l] e p; [discriminate|intros [= <-] H; exact H]|].
  split; [intros l l' H; destruct H as [|t t' l l' H1 H2]; [reflexivity|]; cbn; f_equal; f_equal; clear - H2; induction H2; cbn; congruence|].
  split; [reflexivity|]. split; [|reflexivity].
  eapply sa_inside; [right; left; reflexivity|]. eapply sa_inside; [do 5 right; left; reflexivity|]. eapply sa_literal. do 2 right. left. reflexivity.
Qed.

Print Assumptions C83_tokens.
Print Assumptions C83_errors_point_at_string.
Print Assumptions C83_same_expression.
