(** Where marks to skip a field are in vain: C14. *)
From Coq Require Import List NArith.
From Verif Require Import Str Attr AttrSpec Ast Derive DeriveSpec SkipSpec SkipFacts AstFacts DeriveFacts5 DeriveExamples Schema Gen GenSpec.
Import ListNotations.

(** * C14: skipped members *)

(** Where C14_skipped_leave_no_trace_partial (PropDerive.v) does not apply to a field, because it is unnamed or in an
    adjacently tagged variant, a mark to skip it has no effect at all: the generated code is the same with and without.
    [input_marked] (SkipSpec.v) relates inputs that differ only in such marks. *)
Theorem C14_marks_in_vain : forall pe pp uni ev i1 i2 td,
  input_marked pe pp i1 i2 -> derive pe pp uni ev i1 = DOk td -> derive pe pp uni ev i2 = DOk td.
Proof. intros pe pp uni ev. exact (marked_derive pe pp uni ev). Qed.
Print Assumptions C14_marks_in_vain.

(** a tuple struct; an adjacently tagged enum with a tuple and a struct variant *)
Definition skip_mark : list attribute := [serde_attr [word_item "skip"]].
Definition i_tuple_unmarked : derive_input ty :=
  item [opg_attr [word_item "inline"]] "Pair" (DaStruct (FUnnamed [pos_fld [] (TNamed 0); pos_fld [] (TNamed 9)])).
Definition i_message (l : list attribute) : derive_input ty :=
  item [serde_attr [str_value "tag" "t"; str_value "content" "c"]] "Message"
    (DaEnum [vrt [] "Two" (FUnnamed [pos_fld l i32; pos_fld [] text]); vrt [] "Rec" (FNamed [fld [] "a" i32; fld l "b" (TNamed 9)])]).
Lemma mark_only i t : field_marked yes yes (Build_field_syn skip_mark i t) (Build_field_syn [] i t).
Proof.
  constructor.
  - apply (field_ok_iff yes yes []). reflexivity.
  - apply (field_ok_iff yes yes []). reflexivity.
  - intros x Hx. unfold skip_mark. decide_said; congruence.
Qed.
Lemma unmarked f : snd (field_from_ast yes yes [] (fs_attrs f)) = [] -> field_marked yes yes f f.
Proof.
  intros H. destruct f as [l i t]. cbn in H. apply field_ok_iff in H. constructor; auto. intros x _. reflexivity.
Qed.
Example C14_marks_case : input_marked yes yes i_tuple i_tuple_unmarked /\ ex_derive i_tuple <> DPanic /\
  input_marked yes yes (i_message skip_mark) (i_message []) /\ (exists td, ex_derive (i_message skip_mark) = DOk td) /\
  skip_mark <> [].
Proof.
  split; [|split; [discriminate|split; [|split; [eexists; vm_compute; reflexivity|discriminate]]]].
  - apply im_struct, pm_unnamed. constructor; [now apply unmarked|]. constructor; [apply mark_only|constructor].
  - eapply im_enum; [eapply rep_adjacent; try intros ?; decide_said|].
    constructor; [|constructor; [|constructor]]; constructor.
    + apply pm_unnamed. constructor; [apply mark_only|]. constructor; [now apply unmarked|constructor].
    + apply pm_named; [eauto|]. constructor; [now apply unmarked|]. constructor; [apply mark_only|constructor].
Qed.
