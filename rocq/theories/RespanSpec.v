(** What it is for tokens to be the same but for their places, and what a parser does with places. *)
From Verif Require Import Respan.

(** the same words, operators, literals and groups *)
Inductive same_text : token -> token -> Prop :=
| st_ident : forall name p p', same_text (Ident name p) (Ident name p')
| st_punct : forall c joint p p', same_text (Punct c joint p) (Punct c joint p')
| st_literal : forall text p p', same_text (Literal text p) (Literal text p')
| st_group : forall d l l' p p', Forall2 same_text l l' -> same_text (Group d l p) (Group d l' p').

(** some token of the row, or inside a group of it, stands at the place *)
Inductive stands_at : list token -> place -> Prop :=
| sa_ident : forall l name p, In (Ident name p) l -> stands_at l p
| sa_punct : forall l c joint p, In (Punct c joint p) l -> stands_at l p
| sa_literal : forall l text p, In (Literal text p) l -> stands_at l p
| sa_group : forall l d inner p, In (Group d inner p) l -> stands_at l p
| sa_inside : forall l d inner p p', In (Group d inner p) l -> stands_at inner p' -> stands_at l p'.

(** a parser takes the places in what it reads from the tokens: [places e] are those in [e] *)
Definition keeps_places {T} (parse : list token -> option T) (places : T -> place -> Prop) : Prop :=
  forall l e p, parse l = Some e -> places e p -> stands_at l p.
(** places do not matter to whether it succeeds, nor to what it reads apart from the places in it: [text e] is what [e] says *)
Definition reads_text {T X} (parse : list token -> option T) (text : T -> X) : Prop :=
  forall l l', Forall2 same_text l l' -> option_map text (parse l) = option_map text (parse l').
