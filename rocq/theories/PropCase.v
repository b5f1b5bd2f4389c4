(** Properties C01-C04 (and the spelling part of C05): renaming. *)
From Verif Require Import Case CaseSpec CaseFacts.

(** Everything holds whatever the upper-case letters outside ASCII are. *)

Definition ex_words : list str := [u "very"; u "tasty42"; u "x"].
Lemma ex_words_ok uni : Forall (letter_word uni) ex_words.
Proof.
  repeat constructor; try discriminate; try (do 2 eexists; split; [reflexivity|reflexivity]).
Qed.

(** ** C01 *)
Theorem C01_variant_renaming_follows_convention : forall uni r ws,
  ws <> [] -> Forall (letter_word uni) ws ->
  apply_to_variant uni r (variant_ident ws) = Some (variant_spelling r ws).
Proof. exact variant_conventional. Qed.
Print Assumptions C01_variant_renaming_follows_convention.

Example C01_case : forall uni, ex_words <> [] /\ Forall (letter_word uni) ex_words /\
  variant_ident ex_words = u "VeryTasty42X" /\
  apply_to_variant uni RScreamingKebabCase (variant_ident ex_words) = Some (u "VERY-TASTY42-X") /\
  apply_to_variant uni RCamelCase (variant_ident ex_words) = Some (u "veryTasty42X").
Proof. intros uni. split; [discriminate|]. split; [apply ex_words_ok|]. repeat split; reflexivity. Qed.

(** ** C02 *)
Theorem C02_field_renaming_follows_convention : forall uni r ws,
  Forall (word uni) ws ->
  (exists c w ws', ws = (c :: w) :: ws' /\ is_ascii c) ->
  apply_to_field r (field_ident ws) = Some (field_spelling r ws).
Proof. exact field_conventional. Qed.
Print Assumptions C02_field_renaming_follows_convention.

Example C02_case : forall uni, Forall (word uni) ex_words /\
  (exists c w ws', ex_words = (c :: w) :: ws' /\ is_ascii c) /\
  field_ident ex_words = u "very_tasty42_x" /\
  apply_to_field RCamelCase (field_ident ex_words) = Some (u "veryTasty42X") /\
  apply_to_field RScreamingKebabCase (field_ident ex_words) = Some (u "VERY-TASTY42-X").
Proof.
  intros uni. split; [apply letters_words, ex_words_ok|]. split; [do 3 eexists; split; reflexivity|].
  repeat split; reflexivity.
Qed.

(** ** C03: [None] is a panic of the derive *)
Theorem C03_renaming_never_panics_refuted : exists s, apply_to_field RCamelCase s = None.
Proof. exists (u "__"). reflexivity. Qed.
Print Assumptions C03_renaming_never_panics_refuted.

Theorem C03_variant_renaming_panics_exactly_partial : forall uni r s,
  apply_to_variant uni r s = None <->
  r = RCamelCase /\ ~ exists c rest, s = c :: rest /\ is_ascii c.
Proof. exact variant_panics. Qed.
Print Assumptions C03_variant_renaming_panics_exactly_partial.

Theorem C03_field_renaming_panics_exactly_partial : forall r s,
  apply_to_field r s = None <->
  r = RCamelCase /\
  ~ exists us c rest, s = us ++ c :: rest /\ Forall (fun x => x = c_underscore) us /\
                      c <> c_underscore /\ is_ascii c.
Proof. exact field_panics. Qed.
Print Assumptions C03_field_renaming_panics_exactly_partial.

(** a Latin letter outside ASCII in front *)
Example C03_case : forall uni, apply_to_variant uni RCamelCase [233%N; 116%N] = None /\
  apply_to_field RCamelCase (u "_a") = Some (u "a").
Proof. split; reflexivity. Qed.

(** ** C04 *)
Theorem C04_variant_renaming_injective : forall uni r ws1 ws2,
  separating r -> ws1 <> [] -> ws2 <> [] ->
  Forall (letter_word uni) ws1 -> Forall (letter_word uni) ws2 ->
  apply_to_variant uni r (variant_ident ws1) = apply_to_variant uni r (variant_ident ws2) ->
  variant_ident ws1 = variant_ident ws2.
Proof. exact variant_injective. Qed.
Print Assumptions C04_variant_renaming_injective.

Theorem C04_field_renaming_injective : forall uni r ws1 ws2,
  ws1 <> [] -> ws2 <> [] ->
  Forall (letter_word uni) ws1 -> Forall (letter_word uni) ws2 ->
  apply_to_field r (field_ident ws1) = apply_to_field r (field_ident ws2) ->
  field_ident ws1 = field_ident ws2.
Proof. exact field_injective. Qed.
Print Assumptions C04_field_renaming_injective.

(** the two rules on variants that do not have the property *)
Theorem C04_lower_upper_not_injective_refuted : forall uni r, r = RLowerCase \/ r = RUpperCase ->
  exists ws1 ws2, Forall (letter_word uni) ws1 /\ Forall (letter_word uni) ws2 /\
    apply_to_variant uni r (variant_ident ws1) = apply_to_variant uni r (variant_ident ws2) /\
    variant_ident ws1 <> variant_ident ws2.
Proof.
  intros uni r Hr. exists [u "a"; u "b"], [u "ab"].
  split; [|split; [|split]].
  1,2: repeat constructor; try discriminate; do 2 eexists; split; reflexivity.
  - destruct Hr; subst; reflexivity.
  - discriminate.
Qed.
Print Assumptions C04_lower_upper_not_injective_refuted.

(** words not starting with a letter are not separated by PascalCase *)
Theorem C04_digit_words_collide_refuted : forall uni, exists ws1 ws2,
  Forall (word uni) ws1 /\ Forall (word uni) ws2 /\
  apply_to_field RPascalCase (field_ident ws1) = apply_to_field RPascalCase (field_ident ws2) /\
  field_ident ws1 <> field_ident ws2.
Proof.
  intros uni. exists [u "a"; u "1"], [u "a1"].
  split; [|split; [|split]].
  1,2: repeat constructor; discriminate.
  - reflexivity.
  - discriminate.
Qed.
Print Assumptions C04_digit_words_collide_refuted.

Example C04_case : forall uni, Forall (letter_word uni) ex_words /\ separating RKebabCase /\
  apply_to_variant uni RKebabCase (variant_ident ex_words) = Some (u "very-tasty42-x").
Proof. intros uni. split; [apply ex_words_ok|]. split; [split; discriminate|reflexivity]. Qed.

(** ** C05 *)
Theorem C05_rename_all_spellings : forall s r, rule_from_str s = Some r <-> In (s, r) rule_spellings.
Proof. exact rule_from_str_iff. Qed.
Print Assumptions C05_rename_all_spellings.

Example C05_case : rule_from_str (u "kebab-case") = Some RKebabCase /\ rule_from_str (u "Kebab-Case") = None.
Proof. split; reflexivity. Qed.
