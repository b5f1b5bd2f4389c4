(** The unit tests of renaming (opg_derive/src/case.rs:107-166), run against the model.
    These are tests of the model's fidelity, not proofs of properties. *)
From Coq Require Import List String.
From Verif Require Import Str Case DeriveExamples.
Import ListNotations.
Local Open Scope string_scope. Local Open Scope list_scope.

(** case.rs:108-124: the original name, then with each rule *)
Definition variant_table : list (string * list (rename_rule * string)) :=
  let row o lower upper camel snake screaming kebab screaming_kebab :=
    (o, [(RNone, o); (RLowerCase, lower); (RUpperCase, upper); (RPascalCase, o); (RCamelCase, camel); (RSnakeCase, snake);
         (RScreamingSnakeCase, screaming); (RKebabCase, kebab); (RScreamingKebabCase, screaming_kebab)]) in
  [row "Outcome" "outcome" "OUTCOME" "outcome" "outcome" "OUTCOME" "outcome" "OUTCOME";
   row "VeryTasty" "verytasty" "VERYTASTY" "veryTasty" "very_tasty" "VERY_TASTY" "very-tasty" "VERY-TASTY";
   row "A" "a" "A" "a" "a" "A" "a" "A";
   row "Z42" "z42" "Z42" "z42" "z42" "Z42" "z42" "Z42"].
(** case.rs:142-157 *)
Definition field_table : list (string * list (rename_rule * string)) :=
  let row o upper pascal camel screaming kebab screaming_kebab :=
    (o, [(RNone, o); (RUpperCase, upper); (RPascalCase, pascal); (RCamelCase, camel); (RSnakeCase, o);
         (RScreamingSnakeCase, screaming); (RKebabCase, kebab); (RScreamingKebabCase, screaming_kebab)]) in
  [row "outcome" "OUTCOME" "Outcome" "outcome" "OUTCOME" "outcome" "OUTCOME";
   row "very_tasty" "VERY_TASTY" "VeryTasty" "veryTasty" "VERY_TASTY" "very-tasty" "VERY-TASTY";
   row "a" "A" "A" "a" "A" "a" "A";
   row "z42" "Z42" "Z42" "z42" "Z42" "z42" "Z42"].

Example rename_variants : forall o l r s, In (o, l) variant_table -> In (r, s) l -> apply_to_variant noupper r (u o) = Some (u s).
Proof.
  intros o l r s Ho Hr. cbn in Ho.
  repeat destruct Ho as [Ho|Ho]; try contradiction; injection Ho as <- <-; cbn in Hr;
    repeat destruct Hr as [Hr|Hr]; try contradiction; injection Hr as <- <-; vm_compute; reflexivity.
Qed.
Example rename_fields : forall o l r s, In (o, l) field_table -> In (r, s) l -> apply_to_field r (u o) = Some (u s).
Proof.
  intros o l r s Ho Hr. cbn in Ho.
  repeat destruct Ho as [Ho|Ho]; try contradiction; injection Ho as <- <-; cbn in Hr;
    repeat destruct Hr as [Hr|Hr]; try contradiction; injection Hr as <- <-; vm_compute; reflexivity.
Qed.
