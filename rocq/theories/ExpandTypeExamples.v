(** Invocations of [describe_type!] among variables of the caller. *)
From Verif Require Import Tokens Match Syntax SyntaxSpec Conformance ConformanceSyntax.
From Verif Require Import Expand ExpandType ExpandTypeSpec ExpandTypeFacts2 ExpandTypeFacts3.
Local Open Scope string_scope. Local Open Scope list_scope.

(** a caller with these variables *)
Definition with_variables (C : caller) (l : variables) : caller := {|
  begins := begins C; expr_at := expr_at C; path_at := path_at C; text_of := text_of C; text_of_ref := text_of_ref C; bool_of := bool_of C;
  type_of := type_of C; shown := shown C; schema_of := schema_of C;
  text_var := fun v => match value_of l v with Some (VText s) => Some s | _ => None end;
  scheme_var := scheme_var C;
  model_var := fun v => match value_of l v with Some (VModel m) => Some m | _ => None end;
  data_var := fun v => match value_of l v with Some (VData d) => Some d | _ => None end;
  other_text := other_text C; negated := negated C |}.
Lemma with_has C l : has_variables (with_variables C l) l.
Proof.
  intros v. cbn [with_variables model_var data_var text_var]. destruct (value_of l v) as [x|]; [destruct x|];
    (repeat split; intros; try discriminate; match goal with H : _ = _ |- _ => injection H as ->; reflexivity end).
Qed.

(** variables named as those of the macro *)
Definition some_model : model := Model (Some (u "m")) (Single (MType false TdBoolean)).
Definition some_data : model_data := Single (MType true (TdNumber (mk_simple None None))).
Definition hy_vars : variables := [(u "properties", VModel some_model); (u "required", VData some_data); (u "name", VText (u "Other"))].
Definition link_name : list tree := [tk_id "link"; ARROW; tk_id "name"].
Definition prop (n : String.string) (vs : list tree) : list tree := [tk_id n; COLON_TK; TkGr Paren vs].
Definition prop_required (n : String.string) (vs : list tree) : list tree := [tk_id n; TkGr Bracket [tk_id "required"]; COLON_TK; TkGr Paren vs].
(** [object => { properties: { a[required]: (raw_model => properties) b: (object => { properties: { c[required]:
    (raw_type => { ident: required }) } }) d[required]: (link => name) e: (array => { items: (link => name) }) } }] *)
Definition hy_type : xdescribe := XtObject None [
  (u "a", true, XvInline (XtRawModel (u "properties")));
  (u "b", false, XvInline (XtObject None [(u "c", true, XvInline (XtRawType None (u "required")))]));
  (u "d", true, XvVar (u "name")); (u "e", false, XvInline (XtArray None (XvVar (u "name"))))].
Definition hy_tokens : list tree := form "object" [tk_id "properties"; COLON_TK; TkGr Brace (
  prop_required "a" [tk_id "raw_model"; ARROW; tk_id "properties"] ++
  prop "b" (form "object" [tk_id "properties"; COLON_TK; TkGr Brace (
    prop_required "c" (form "raw_type" [tk_id "ident"; COLON_TK; tk_id "required"]) ++ [])]) ++
  prop_required "d" link_name ++ prop "e" (form "array" [tk_id "items"; COLON_TK; TkGr Paren link_name]) ++ [])].
Definition hy_meaning : describe := DtObject None [
  (u "a", true, DvInline (DtRawModel some_model));
  (u "b", false, DvInline (DtObject None [(u "c", true, DvInline (DtRawType None some_data))]));
  (u "d", true, DvLink (u "Other")); (u "e", false, DvInline (DtArray None (DvLink (u "Other"))))].
Lemma hy_means : means (value_of hy_vars) hy_type hy_meaning.
Proof. unfold hy_type, hy_meaning. repeat (constructor; try reflexivity). Qed.
Lemma hy_nodup : NoDup (moved hy_type).
Proof. cbn [hy_type moved moved_value flat_map snd app]. repeat constructor; cbn [In]; intros H; repeat destruct H as [H|H]; try discriminate; exact H. Qed.
Lemma hy_written C : written C hy_tokens hy_type.
Proof.
  unfold hy_tokens, hy_type. apply (wt_object C []); [reflexivity|].
  assert (HL : written_value C link_name (XvVar (u "name"))) by (apply wv_variable; repeat split; discriminate).
  apply mn_more; [apply wp_required; [discriminate|]; apply wv_inline, wt_raw_model; discriminate|].
  apply mn_more; [apply wp_optional; [discriminate|]; apply wv_inline; apply (wt_object C []); [reflexivity|]; apply mn_more; [|constructor];
    apply wp_required; [discriminate|]; apply wv_inline; apply (wt_raw_type C []); [reflexivity|discriminate]|].
  apply mn_more; [apply wp_required; [discriminate|exact HL]|].
  apply mn_more; [|constructor]. apply wp_optional; [discriminate|]. apply wv_inline. apply (wt_array C []); [reflexivity|exact HL].
Qed.

(** [object => { properties: { a: (raw_model => m) b: (raw_model => m) } }] *)
Definition twice : xdescribe := XtObject None [(u "a", false, XvInline (XtRawModel (u "m"))); (u "b", false, XvInline (XtRawModel (u "m")))].
Definition twice_tokens : list tree := form "object" [tk_id "properties"; COLON_TK; TkGr Brace (
  prop "a" [tk_id "raw_model"; ARROW; tk_id "m"] ++ prop "b" [tk_id "raw_model"; ARROW; tk_id "m"] ++ [])].
Definition twice_vars : variables := [(u "m", VModel some_model)].
Definition twice_meaning : describe := DtObject None [(u "a", false, DvInline (DtRawModel some_model)); (u "b", false, DvInline (DtRawModel some_model))].
Lemma twice_written C : written C twice_tokens twice.
Proof.
  apply (wt_object C []); [reflexivity|]. apply mn_more; [|apply mn_more; [|constructor]];
    (apply wp_optional; [discriminate|]; apply wv_inline, wt_raw_model; discriminate).
Qed.
Lemma twice_means : means (value_of twice_vars) twice twice_meaning.
Proof. unfold twice, twice_meaning. repeat (constructor; try reflexivity). Qed.
Lemma twice_fails mk : mk <> [] -> run_type mk twice (caller_frame twice_vars) = None.
Proof.
  intros Hm. destruct (run_type mk twice (caller_frame twice_vars)) as [[m e]|] eqn:E; [|reflexivity].
  assert (H : exists e, run_type mk twice (caller_frame twice_vars) = Some (m, e)) by eauto.
  apply type_result in H; [|exact Hm]. destruct H as (_ & _ & Hn & _). inversion Hn as [|x l Hi _]. destruct Hi. now left.
Qed.
