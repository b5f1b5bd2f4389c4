(** Token trees: what a macro invocation is written with.

    Models the token trees rustc hands to a [macro_rules!] macro.  A simplification: operators are glued as the lexer
    glues them ([::], [&&], [=>] are one token each), lifetimes and doc comments do not occur, and identifiers carry no
    hygiene information. *)
From Verif Require Export Str.

Inductive delim := Paren | Bracket | Brace.
(** a string, an integer that can be a [u16] or [i32] alike, or any other literal, by its text; [true] and [false] are identifiers *)
Inductive tlit := TlStr (s : str) | TlInt (n : N) | TlOther (text : str).
Inductive tree := TkId (s : str) | TkLit (l : tlit) | TkPu (s : str) | TkGr (d : delim) (l : list tree).

(** shorthands for the sources quoted in this development *)
Definition tk_id (s : string) : tree := TkId (u s).
Definition tk_str (s : string) : tree := TkLit (TlStr (u s)).
Definition tk_pu (s : string) : tree := TkPu (u s).

Definition delim_eqb (a b : delim) : bool :=
  match a, b with Paren, Paren | Bracket, Bracket | Brace, Brace => true | _, _ => false end.
Definition tlit_eqb (a b : tlit) : bool :=
  match a, b with
  | TlStr s, TlStr s' => str_eqb s s'
  | TlInt n, TlInt n' => N.eqb n n'
  | TlOther s, TlOther s' => str_eqb s s'
  | _, _ => false
  end.
(** equality of tokens; a group is not a token *)
Definition token_eqb (a b : tree) : bool :=
  match a, b with
  | TkId s, TkId s' => str_eqb s s'
  | TkLit l, TkLit l' => tlit_eqb l l'
  | TkPu s, TkPu s' => str_eqb s s'
  | _, _ => false
  end.

(** how many tokens, counting each delimiter *)
Fixpoint tree_size (t : tree) : nat :=
  match t with TkGr _ l => S (S (fold_right (fun x n => tree_size x + n) 0 l)) | _ => 1 end.
Definition tokens (l : list tree) : nat := fold_right (fun x n => tree_size x + n) 0 l.

Lemma tokens_group d l : tree_size (TkGr d l) = S (S (tokens l)).
Proof. reflexivity. Qed.
Lemma tokens_app a b : tokens (a ++ b) = tokens a + tokens b.
Proof. unfold tokens. rewrite fold_right_app. induction a as [|t a IH]; cbn; lia. Qed.
Lemma tokens_cons t l : tokens (t :: l) = tree_size t + tokens l.
Proof. reflexivity. Qed.
Lemma tree_size_pos t : 1 <= tree_size t.
Proof. destruct t; cbn; lia. Qed.

Lemma tree_ind' (P : tree -> Prop) :
  (forall s, P (TkId s)) -> (forall l, P (TkLit l)) -> (forall s, P (TkPu s)) ->
  (forall d l, Forall P l -> P (TkGr d l)) -> forall t, P t.
Proof.
  intros H1 H2 H3 H4. fix go 1. intros [s|l|s|d l]; [apply H1|apply H2|apply H3|].
  apply H4. induction l; constructor; [apply go|assumption].
Qed.

Lemma delim_eqb_eq a b : delim_eqb a b = true <-> a = b.
Proof. destruct a, b; cbn; split; congruence. Qed.
Lemma tlit_eqb_eq a b : tlit_eqb a b = true <-> a = b.
Proof.
  destruct a, b; cbn; try (split; congruence).
  - rewrite str_eqb_eq. split; congruence.
  - rewrite N.eqb_eq. split; congruence.
  - rewrite str_eqb_eq. split; congruence.
Qed.
Lemma token_eqb_eq a b : token_eqb a b = true -> a = b.
Proof.
  destruct a, b; cbn; try discriminate; rewrite ?str_eqb_eq, ?tlit_eqb_eq; congruence.
Qed.
Lemma token_eqb_refl a : (forall d l, a <> TkGr d l) -> token_eqb a a = true.
Proof.
  destruct a; cbn; intros H; rewrite ?str_eqb_eq, ?tlit_eqb_eq; try reflexivity. now destruct (H d l).
Qed.
