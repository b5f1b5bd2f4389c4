(** Concrete types, and what serde writes for their values, for the theorems of PropSound.v. *)
From Verif Require Import Attr AttrSpec AttrFacts Ast AstFacts Derive DeriveSpec Schema SchemaSpec Gen GenSpec GenFacts GenFacts4 DeriveFacts DeriveFacts2 DeriveFacts5 DeriveExamples.
From Verif Require Import Doc Ser Api ApiSpec ApiFacts ApiFacts2 ApiFacts8 Conformance ApiExamples.
From Verif Require Import SoundSpec SoundFacts2 SoundFacts4 SoundFacts5 SoundCheck.
From Coq Require Import Arith Lia ZArith.
Local Open Scope string_scope. Local Open Scope list_scope.

(** ** The types of the repository's tests *)
Definition test_source (id : tid) : derive_input ty := nth id items t_new_type.
Definition test_known (id : tid) : bool := Nat.ltb id 22.
Definition test_disc (s : str) : Z := 0%Z.
Lemma test_derived id : test_known id = true -> derive yes yes noupper eval_text (test_source id) = DOk (test_env id).
Proof.
  unfold test_known. intros H. apply Nat.ltb_lt in H. change (run_derive (test_source id) = DOk (test_env id)).
  do 22 (destruct id as [|id]; [vm_compute; reflexivity|]). lia.
Qed.
(** all but those with an explicitly given type, a recursive one, a unit variant next to others, or a field of a foreign type *)
Definition test_supported : list tid := [0; 1; 2; 3; 4; 5; 6; 7; 9; 10; 11; 14; 15; 16; 18; 19; 20; 21].
Lemma test_supported_ok {tags : Prop} id : In id test_supported ->
  supported_inside yes yes test_source tags (TNamed id) /\ derived_inside yes yes noupper test_source eval_text test_env (TNamed id).
Proof.
  intros H. apply (deepb_ok yes yes noupper eval_text test_source test_env test_known test_derived 20).
  assert (Ha : forallb (fun id => deepb yes yes test_source test_known 20 (TNamed id)) test_supported = true) by (vm_compute; reflexivity).
  rewrite forallb_forall in Ha. now apply Ha.
Qed.

Definition named_call (id : tid) : mention_call := {| mc_ty := TNamed id; mc_inline := false; mc_params := params_default |}.
(** every supported type is mentioned once *)
Definition supported_calls : list mention_call := map named_call test_supported.
Definition supported_cx : components := Eval vm_compute in
  match mention_all test_env 20 supported_calls cx_new with Ok cx => cx | Fuel => cx_new end.
Lemma supported_return : mentions_return test_env supported_calls cx_new supported_cx.
Proof. exists 20. vm_compute. reflexivity. Qed.
Definition supported_sites : list site := Eval vm_compute in
  (call_sites supported_calls ++ flat_map (fun id => sites_of test_env (TNamed id)) test_supported ++
   flat_map (fun t => sites_of test_env t) [TOption string; TOption (TOption string); TWrap WBox (TOption i32); TOption i32; TWrap WRef (TPrim PStr)]).
Lemma supported_visited s : visited test_env (call_sites supported_calls) s -> In s supported_sites.
Proof. apply visited_in_list; vm_compute; reflexivity. Qed.
Lemma supported_unambiguous : names_unambiguous test_env (call_sites supported_calls).
Proof. apply (names_checked _ _ supported_sites supported_visited). vm_compute. reflexivity. Qed.

(** ** What serde writes *)
Ltac rule := first [left; decide_said; fail | right; split; [reflexivity|intros ?; decide_said]].
Ltac named := first [apply fn_explicit; decide_said; fail | apply fn_rule; [intros ?; decide_said|vm_compute; reflexivity]].
Ltac vnamed := first [apply vn_explicit; decide_said; fail | apply vn_rule; [intros ?; decide_said|vm_compute; reflexivity]].
Ltac members := repeat first [apply sf_nil | apply sf_keep; [unfold field_skipped; decide_said|named|] | apply sf_skip; [unfold field_skipped; decide_said|] ].
Ltac variants := repeat first [apply sv_nil | apply sv_keep; [unfold variant_skipped; decide_said|vnamed|] | apply sv_skip; [unfold variant_skipped; decide_said|] ].
(** a struct without [transparent] and [tag]; a field without [flatten] *)
Ltac plain_struct r := eapply em_struct with (rule := r); [reflexivity|decide_said|intros ?; decide_said| | |].
Ltac emit := apply ef_emit; [decide_said| |].

Notation test_emits := (emits yes yes noupper test_disc test_source).
(** SimpleStruct { asd: 5, hello_camel_case: NewType("x") } *)
Definition simple_json : list (str * json) := [(u "asd", JInt 5); (u "helloCamelCase", JStr (u "x"))].
Lemma string_emits s : test_emits string (JStr s).
Proof. apply em_prim, pm_text. cbn. tauto. Qed.
Lemma i32_emits : test_emits i32 (JInt 5).
Proof. apply em_prim. apply (pm_int _ true 32%Z); [reflexivity|]. cbn. lia. Qed.
Lemma newtype_emits s : test_emits (TNamed 0) (JStr s).
Proof. eapply em_newtype; [reflexivity|]. apply string_emits. Qed.
Lemma simple_emits : test_emits (TNamed 2) (JObj simple_json).
Proof.
  plain_struct RCamelCase.
  - rule.
  - members.
  - emit; [apply i32_emits|]. emit; [apply newtype_emits|]. apply ef_nil.
Qed.
(** InternallyTaggedEnum::Test(..) *)
Definition internal_json : list (str * json) := (u "tag", JStr (u "test")) :: simple_json.
Lemma internal_variants : enum_variants yes yes noupper (test_source 6) (match di_data t_internal with DaEnum vs => vs | _ => [] end)
  [(u "test", vrt [] "Test" (FUnnamed [pos_fld [] (TNamed 2)])); (u "another-test", vrt [] "AnotherTest" (FNamed [fld [] "field" string]))].
Proof. exists RKebabCase. split; [rule|]. cbn. variants. Qed.
Lemma internal_represents : represents yes yes (di_attrs (test_source 6)) (RepInternal (u "tag")).
Proof. apply rep_said_ok. vm_compute. reflexivity. Qed.
Lemma internal_emits : test_emits (TNamed 6) (JObj internal_json).
Proof.
  apply em_internal with (v := vrt [] "Test" (FUnnamed [pos_fld [] (TNamed 2)])).
  - exists (match di_data t_internal with DaEnum vs => vs | _ => [] end). eexists. split; [reflexivity|]. split.
    { intros [_ H]. specialize (H _ (or_introl eq_refl)). discriminate H. }
    split; [apply internal_represents|]. split; [apply internal_variants|now left].
  - eapply ep_newtype; [reflexivity|]. apply simple_emits.
  - cbn. intros [H|[H|[] ] ]; discriminate H.
Qed.
(** InModule { field: "a", second: Test { another_field: None } } *)
Definition module_json : json := JObj [(u "field", JStr (u "a")); (u "second", JObj [(u "another_field", JNull)])].
Lemma module_emits : test_emits (TNamed 20) module_json.
Proof.
  plain_struct RNone; [rule|members|]. emit; [apply string_emits|]. emit; [|apply ef_nil].
  plain_struct RNone; [rule|members|]. emit; [apply em_none|apply ef_nil].
Qed.

(** ** Types described by flags that suit them *)

(** #[opg(string)] struct Name(String) *)
Definition f_name : derive_input ty := item [opg_attr [word_item "string"] ] "Name" (DaStruct (FUnnamed [pos_fld [] string])).
(** struct Person { #[opg(string)] id: Uuid, #[opg(integer, nullable)] age: Option<u8>, #[opg(string)] nick: Box<Name>, name: Name } *)
Definition f_person : derive_input ty := item [] "Person" (DaStruct (FNamed [
  fld [opg_attr [word_item "string"] ] "id" (TPrim PUuid); fld [opg_attr [word_item "integer"; word_item "nullable"] ] "age" (TOption (TPrim PU8));
  fld [opg_attr [word_item "string"] ] "nick" (TWrap WBox (TNamed 0)); fld [] "name" (TNamed 0)])).
Definition f_source (id : tid) : derive_input ty := match id with 0 => f_name | _ => f_person end.
Definition f_env : env := fun id => match id with 0 => derived f_name | _ => derived f_person end.
Definition f_json : json := JObj [(u "id", JStr (u "x")); (u "age", JNull); (u "nick", JStr (u "y")); (u "name", JStr (u "z"))].
Definition f_types : list ty := [TNamed 1; TPrim PUuid; TOption (TPrim PU8); TPrim PU8; TWrap WBox (TNamed 0); TNamed 0; string].
Lemma f_inside t : inside yes yes f_source (TNamed 1) t -> In t f_types.
Proof.
  induction 1 as [|t1 t2 _ IH Hd]; [now left|]. apply children_ok in Hd.
  destruct IH as [<-|[<-|[<-|[<-|[<-|[<-|[<-|[] ] ] ] ] ] ] ]; vm_compute in Hd; vm_compute; tauto.
Qed.
Lemma f_text p null : In p [PString; PUuid] -> always yes yes f_source null ETString (TPrim p).
Proof. intros Hp. apply al_prim. intros j Hj. destruct Hp as [<-|[<-|[] ] ]; inversion Hj; subst; try exact I; try discriminate; now destruct H. Qed.
Lemma f_name_always null : always yes yes f_source null ETString (TNamed 0).
Proof. eapply al_newtype; [reflexivity|]. apply f_text. now left. Qed.
Lemma f_age (null : Prop) : null -> always yes yes f_source null ETInteger (TOption (TPrim PU8)).
Proof.
  intros Hn. apply al_option; [exact Hn|]. apply al_prim. intros j Hj. inversion Hj; subst; try exact I; try now destruct H.
  cbn in H. destruct H as [H|[H|[H|[H|[H|[H|[] ] ] ] ] ] ]; discriminate H.
Qed.
Ltac flag_said H := match type of H with said _ _ ?p ?l ?x => eapply (said_decide _ _ p l) in H; [|vm_compute; reflexivity]; vm_compute in H end.
Lemma f_supported tags : supported_inside yes yes f_source tags (TNamed 1).
Proof.
  intros t Ht. apply f_inside in Ht. destruct Ht as [<-|[<-|[<-|[<-|[<-|[<-|[<-|[] ] ] ] ] ] ] ]; try exact I; [| constructor|].
  - eapply is_struct; [reflexivity|decide_said|intros t Ht; cbn [f_source di_attrs f_person] in Ht; flag_said Ht; destruct Ht|]. intros rule l Hr Hl.
    assert (rule = RNone) as ->.
    { destruct Hr as [Hr|[Hr _] ]; [exfalso; revert Hr; decide_said|exact Hr]. }
    assert (Hl' : serialised_fields yes yes RNone 0 (match di_data f_person with DaStruct (FNamed fs) => fs | _ => [] end)
      (combine [u "id"; u "age"; u "nick"; u "name"] (match di_data f_person with DaStruct (FNamed fs) => fs | _ => [] end))).
    { cbn. members. }
    assert (l = combine [u "id"; u "age"; u "nick"; u "name"] (match di_data f_person with DaStruct (FNamed fs) => fs | _ => [] end)) as ->.
    { eapply serialised_fields_unique; [|exact Hl|exact Hl'].
      intros f Hf. assert (Hd : derive yes yes noupper DeriveExamples.same f_person = DOk (derived f_person)) by (vm_compute; reflexivity).
      destruct (derive_inv _ _ _ _ _ _ Hd) as (c & Hc & _). pose proof (cp_data _ _ _ _ _ Hc) as Hdata. cbn in Hdata.
      inversion Hdata as [|? gs Hg]; subst. eapply fields_parsed_acc; [exact Hg|exact Hf]. }
    split; [vm_compute; repeat constructor; cbn; intuition discriminate|].
    intros n f Hin. cbn in Hin. split; [left|intros Ht; cbn [f_source di_attrs f_person] in Ht; flag_said Ht; destruct Ht].
    destruct Hin as [ [= <- <-]|[ [= <- <-]|[ [= <- <-]|[ [= <- <-]|[] ] ] ] ]; (split; [decide_said|]); intros t Ht; cbn [fs_attrs fld] in Ht; flag_said Ht.
    + destruct Ht as [ [= <-]|[] ]. right. apply f_text. cbn. tauto.
    + destruct Ht as [ [= <-]|[Ht|[] ] ]; [|discriminate Ht]. right. apply f_age. decide_said.
    + destruct Ht as [ [= <-]|[] ]. right. apply al_wrap; [discriminate|]. apply f_name_always.
    + destruct Ht.
  - eapply is_newtype; [reflexivity|unfold field_skipped; decide_said| |].
    + split; [decide_said|]. intros t Ht. cbn [fs_attrs pos_fld] in Ht. flag_said Ht. destruct Ht.
    + intros t Ht. cbn [f_source di_attrs f_name] in Ht. flag_said Ht. destruct Ht as [ [= <-]|[] ]. apply f_text. cbn. tauto.
Qed.
Lemma f_derived : derived_inside yes yes noupper f_source DeriveExamples.same f_env (TNamed 1).
Proof. intros id _. destruct id; vm_compute; reflexivity. Qed.
Lemma f_emits : emits yes yes noupper test_disc f_source (TNamed 1) f_json.
Proof.
  assert (Hs : forall s, emits yes yes noupper test_disc f_source (TNamed 0) (JStr s)).
  { intros s. eapply em_newtype; [reflexivity|]. apply em_prim, pm_text. cbn. tauto. }
  plain_struct RNone; [rule|members|]. emit; [apply em_prim, pm_text; cbn; tauto|]. emit; [apply em_none|].
  emit; [apply em_wrap; [discriminate|apply Hs]|]. emit; [apply Hs|apply ef_nil].
Qed.

(** ** Types that are not described as they are written *)
Definition sources (l : list (derive_input ty)) (id : tid) : derive_input ty := nth id l i_secret.
Definition sources_env (l : list (derive_input ty)) : env := fun id => nth id (map derived l) (derived i_secret).
Definition zero (s : str) : Z := 0%Z.
Lemma sources_derived l t : forallb (fun i => match ex_derive i with DOk _ => true | _ => false end) (i_secret :: l) = true ->
  derived_inside yes yes noupper (sources l) DeriveExamples.same (sources_env l) t.
Proof.
  intros H id _. change (ex_derive (sources l id) = DOk (sources_env l id)). unfold sources, sources_env. rewrite map_nth.
  assert (Hi : In (nth id l i_secret) (i_secret :: l)).
  { destruct (le_lt_dec (length l) id); [left; symmetry; now apply nth_overflow|right; now apply nth_In]. }
  rewrite forallb_forall in H. specialize (H _ Hi). unfold derived. destruct (ex_derive (nth id l i_secret)); [reflexivity|discriminate..].
Qed.
(** the schema of a type *)
Definition schema_at (l : list (derive_input ty)) (t : ty) : option (model * bmap str model) :=
  match get_schema (sources_env l) 20 t cx_new with Ok (m, cx) => Some (m, cx_schemas cx) | Fuel => None end.
Lemma mis l t j m S : forallb (fun i => match ex_derive i with DOk _ => true | _ => false end) (i_secret :: l) = true ->
  schema_at l t = Some (m, S) -> emits yes yes noupper zero (sources l) t j -> ~ valid_model S m j ->
  misdescribed yes yes noupper DeriveExamples.same zero (sources l) (sources_env l) t j.
Proof.
  intros Hl Hs Hj Hv. split; [now apply sources_derived|]. split; [exact Hj|]. unfold schema_at in Hs.
  destruct (get_schema _ _ _ _) as [[m' cx]|] eqn:Eg; [|discriminate]. injection Hs as -> <-. exists m, cx. split; [now exists 20|exact Hv].
Qed.
Ltac schema := vm_compute; reflexivity.
Ltac invalid := repeat match goal with
  | H : In _ [] |- _ => destruct H
  | H : In _ (_ :: _) |- _ => destruct H as [H|H]; [try discriminate H; subst|]
  | H : valid _ (Inline _) _ |- _ => inversion H; clear H; subst
  | H : valid_model _ (Model _ _) _ |- _ => inversion H; clear H; subst
  end; try discriminate.

(** one-element tuples *)
Lemma mis_tuple1 : misdescribed yes yes noupper DeriveExamples.same zero (sources []) (sources_env []) (TWrap WTuple1 i32) (JArr [JInt 5]).
Proof.
  eapply mis; [vm_compute; reflexivity|schema| |].
  - apply em_tuple1, em_prim. apply (pm_int _ true 32%Z); [reflexivity|]. cbn. lia.
  - intros H. invalid.
Qed.
(** [Option] of a type described by alternatives *)
Lemma mis_option : misdescribed yes yes noupper DeriveExamples.same zero (sources [i_level]) (sources_env [i_level]) (TOption (TNamed 0)) JNull.
Proof.
  eapply mis; [vm_compute; reflexivity|schema|apply em_none|]. intros H. invalid.
Qed.
Ltac not_int := let H := fresh in intros [_ H]; first [specialize (H _ (or_introl eq_refl)); discriminate H | specialize (H _ (or_intror (or_introl eq_refl))); discriminate H].
Ltac a_variant := eexists; eexists; split; [reflexivity|]; split;
  [first [not_int | let H := fresh in intros [H _]; decide_said]
  |split; [apply rep_said_ok; vm_compute; reflexivity|split; [exists RNone; split; [rule|cbn; variants]|cbn; tauto] ] ].

(** a unit variant next to others, externally tagged *)
Definition unit_or : derive_input ty := item [] "Mixed" (DaEnum [vrt [] "Empty" FUnit; vrt [] "Size" (FUnnamed [pos_fld [] i32])]).
Lemma mis_external_unit : misdescribed yes yes noupper DeriveExamples.same zero (sources [unit_or]) (sources_env [unit_or]) (TNamed 0) (JStr (u "Empty")).
Proof.
  eapply mis; [vm_compute; reflexivity|schema| |].
  - eapply em_external_unit; [a_variant|reflexivity].
  - intros H. invalid.
Qed.
(** an enum of unit variants with a tag *)
Definition tagged_units : derive_input ty := item [serde_attr [str_value "tag" "kind"]] "Signal" (DaEnum [vrt [] "Stop" FUnit; vrt [] "Go" FUnit]).
Lemma mis_tagged_units : misdescribed yes yes noupper DeriveExamples.same zero (sources [tagged_units]) (sources_env [tagged_units]) (TNamed 0)
  (JObj [(u "kind", JStr (u "Stop"))]).
Proof.
  eapply mis; [vm_compute; reflexivity|schema| |].
  - eapply em_internal_unit; [a_variant|reflexivity].
  - intros H. invalid.
Qed.
(** a variant with named fields, adjacently tagged *)
Lemma mis_adjacent_struct : misdescribed yes yes noupper DeriveExamples.same zero (sources [i_adjacent]) (sources_env [i_adjacent]) (TNamed 0)
  (JObj [(u "t", JStr (u "Rec")); (u "c", JObj [(u "a", JInt 1)])]).
Proof.
  eapply mis; [vm_compute; reflexivity|schema| |].
  - eapply em_adjacent with (v := vrt [] "Rec" (FNamed [fld [] "a" i32])); [a_variant|].
    eapply ep_struct with (rule := RNone); [reflexivity|rule|members|]. emit; [|apply ef_nil]. apply em_prim.
    apply (pm_int _ true 32%Z); [reflexivity|]. cbn. lia.
  - intros H. inversion H as [| | | | | | |d n props add req l Hr Hp Ha| | |]; subst.
    match type of Hp with context [bm_get _ ?ps] => specialize (Hp (u "c") (JObj [(u "a", JInt 1)])) end.
    specialize (Hp _ (or_intror (or_introl eq_refl)) eq_refl). invalid.
Qed.
(** an enum written as an integer, without explicit discriminants *)
Definition implicit : derive_input ty := item [repr_attr] "Implicit" (DaEnum [vrt [] "Low" FUnit; vrt [] "High" FUnit]).
Lemma mis_implicit : misdescribed yes yes noupper DeriveExamples.same zero (sources [implicit]) (sources_env [implicit]) (TNamed 0) (JInt 1).
Proof.
  eapply mis; [vm_compute; reflexivity|schema| |].
  - eapply em_repr with (n := u "High"); [reflexivity| |exists RNone; split; [rule|cbn; variants]|cbn; tauto|cbn; tauto].
    split; [decide_said|]. intros v [<-|[<-|[] ] ]; reflexivity.
  - intros H. invalid.
Qed.
(** two fields with one name *)
Definition twins : derive_input ty :=
  item [] "Twins" (DaStruct (FNamed [fld [serde_attr [str_value "rename" "x"]] "a" i32; fld [] "x" text])).
Lemma mis_twins : misdescribed yes yes noupper DeriveExamples.same zero (sources [twins]) (sources_env [twins]) (TNamed 0)
  (JObj [(u "x", JInt 1); (u "x", JStr (u "s"))]).
Proof.
  eapply mis; [vm_compute; reflexivity|schema| |].
  - plain_struct RNone; [rule|members|]. emit; [|emit; [|apply ef_nil] ].
    + apply em_prim. apply (pm_int _ true 32%Z); [reflexivity|]. cbn. lia.
    + apply em_prim, pm_text. cbn. tauto.
  - intros H. inversion H as [| | | | | | |d n props add req l Hr Hp Ha| | |]; subst.
    specialize (Hp (u "x") (JInt 1) _ (or_introl eq_refl) eq_refl). invalid.
Qed.
(** a transparent struct with a named field *)
Definition see_through : derive_input ty :=
  item [serde_attr [word_item "transparent"]] "Meters" (DaStruct (FNamed [fld [] "value" i32])).
Lemma see_through_field : transparent_field yes yes (sources [see_through] 0) (fld [] "value" i32).
Proof.
  exists (FNamed [fld [] "value" i32]), DkNamed. do 2 (split; [reflexivity|]). split; [decide_said|]. split; [now left|].
  split; [unfold field_skipped; decide_said|]. intros f' [<-|[] ] _. reflexivity.
Qed.
Lemma see_through_value : emits yes yes noupper zero (sources [see_through]) i32 (JInt 5).
Proof. apply em_prim. apply (pm_int _ true 32%Z); [reflexivity|]. cbn. lia. Qed.
Lemma see_through_emits : emits yes yes noupper zero (sources [see_through]) (TNamed 0) (JInt 5).
Proof. exact (em_transparent _ _ _ _ _ _ _ _ see_through_field see_through_value). Qed.
Lemma mis_transparent : misdescribed yes yes noupper DeriveExamples.same zero (sources [see_through]) (sources_env [see_through]) (TNamed 0) (JInt 5).
Proof. eapply mis; [vm_compute; reflexivity|schema|exact see_through_emits|]. intros H. invalid. Qed.
(** a flattened field *)
Definition flat_paging : derive_input ty := item [] "Paging" (DaStruct (FNamed [fld [] "limit" i32])).
Definition flat_query : derive_input ty :=
  item [] "Query" (DaStruct (FNamed [fld [] "text" text; fld [serde_attr [word_item "flatten"]] "paging" (TNamed 1)])).
Lemma flat_said : AttrSpec.said yes yes PField (fs_attrs (fld [serde_attr [word_item "flatten"]] "paging" (TNamed 1))) SFlatten.
Proof. decide_said. Qed.
Definition flat_json : json := JObj [(u "text", JStr (u "a")); (u "limit", JInt 5)].
Lemma flat_emits : emits yes yes noupper zero (sources [flat_query; flat_paging]) (TNamed 0) flat_json.
Proof.
  plain_struct RNone; [rule|members|]. emit; [apply em_prim, pm_text; cbn; tauto|].
  change [(u "limit", JInt 5)] with ([(u "limit", JInt 5)] ++ []). eapply ef_flatten; [decide_said| |now left|apply ef_nil].
  plain_struct RNone; [rule|members|]. emit; [|apply ef_nil]. apply em_prim. apply (pm_int _ true 32%Z); [reflexivity|]. cbn. lia.
Qed.
Lemma mis_flatten : misdescribed yes yes noupper DeriveExamples.same zero (sources [flat_query; flat_paging])
  (sources_env [flat_query; flat_paging]) (TNamed 0) flat_json.
Proof.
  eapply mis; [vm_compute; reflexivity|schema|exact flat_emits|].
  intros H. inversion H as [| | | | | | |d n props add req l Hr Hp Ha| | |]; subst.
  specialize (Hr (u "paging") (or_intror (or_introl eq_refl))). cbn in Hr. destruct Hr as [Hr|[Hr|[] ] ]; discriminate Hr.
Qed.
(** a struct with a tag *)
Definition tagged_struct : derive_input ty :=
  item [serde_attr [str_value "tag" "kind"; str_value "rename" "event"]] "Event" (DaStruct (FNamed [fld [] "code" i32])).
Definition tagged_json : list (str * json) := [(u "kind", JStr (u "event")); (u "code", JInt 5)].
Lemma tagged_emits : emits yes yes noupper zero (sources [tagged_struct]) (TNamed 0) (JObj tagged_json).
Proof.
  eapply em_struct_tagged with (rule := RNone) (l := [(u "code", fld [] "code" i32)]);
    [reflexivity|decide_said|decide_said|left; decide_said|rule|members|].
  emit; [|apply ef_nil]. apply em_prim. apply (pm_int _ true 32%Z); [reflexivity|]. cbn. lia.
Qed.
Lemma tagged_said : AttrSpec.said yes yes (PContainer DkNamed) (di_attrs (sources [tagged_struct] 0)) (STag (u "kind")).
Proof. decide_said. Qed.
Lemma tagged_derived : derived_inside yes yes noupper (sources [tagged_struct]) DeriveExamples.same (sources_env [tagged_struct]) (TNamed 0).
Proof. apply sources_derived. vm_compute. reflexivity. Qed.
Lemma tagged_inside t : inside yes yes (sources [tagged_struct]) (TNamed 0) t -> In t [TNamed 0; i32].
Proof.
  induction 1 as [|t1 t2 _ IH Hd]; [now left|]. apply children_ok in Hd. destruct IH as [<-|[<-|[] ] ]; vm_compute in Hd; vm_compute; tauto.
Qed.
Lemma tagged_supported : supported_inside yes yes (sources [tagged_struct]) True (TNamed 0).
Proof.
  intros t Ht. apply tagged_inside in Ht. destruct Ht as [<-|[<-|[] ] ]; [|exact I].
  eapply is_struct; [reflexivity|decide_said|intros _ _; exact I|]. intros rule l Hr Hl.
  assert (rule = RNone) as ->.
  { destruct Hr as [Hr|[Hr _] ]; [exfalso; revert Hr; decide_said|exact Hr]. }
  assert (Hl' : serialised_fields yes yes RNone 0 [fld [] "code" i32] [(u "code", fld [] "code" i32)]) by members.
  assert (l = [(u "code", fld [] "code" i32)]) as ->.
  { eapply serialised_fields_unique; [|exact Hl|exact Hl'].
    intros f Hf. assert (Hd : derive yes yes noupper DeriveExamples.same tagged_struct = DOk (derived tagged_struct)) by (vm_compute; reflexivity).
    destruct (derive_inv _ _ _ _ _ _ Hd) as (c & Hc & _). pose proof (cp_data _ _ _ _ _ Hc) as Hdata. cbn in Hdata.
    inversion Hdata as [|? gs Hg]; subst. eapply fields_parsed_acc; [exact Hg|exact Hf]. }
  split; [repeat constructor; intros []|]. intros n f [ [= <- <-]|[] ]. split.
  - left. split; [decide_said|]. intros t Ht. cbn [fs_attrs fld] in Ht. flag_said Ht. destruct Ht.
  - intros Ht. cbn [sources nth di_attrs tagged_struct item] in Ht. flag_said Ht. destruct Ht as [H|[H|[] ] ]; discriminate H.
Qed.

(** ** A flattened field that is not required *)
Definition side_paging : field_syn ty := fld [serde_attr [word_item "flatten"]; opg_attr [word_item "optional"] ] "paging" (TNamed 1).
Lemma side_said : AttrSpec.said yes yes PField (fs_attrs side_paging) SFlatten.
Proof. decide_said. Qed.
Definition side_query : derive_input ty := item [] "Query" (DaStruct (FNamed [fld [] "text" text; side_paging])).
Definition side_sources : tid -> derive_input ty := sources [side_query; flat_paging].
Definition side_env : env := sources_env [side_query; flat_paging].
Lemma side_derived : derived_inside yes yes noupper side_sources DeriveExamples.same side_env (TNamed 0).
Proof. apply sources_derived. vm_compute. reflexivity. Qed.
Lemma side_emits : emits yes yes noupper zero side_sources (TNamed 0) flat_json.
Proof.
  plain_struct RNone; [rule|members|]. emit; [apply em_prim, pm_text; cbn; tauto|].
  change [(u "limit", JInt 5)] with ([(u "limit", JInt 5)] ++ []). eapply ef_flatten; [decide_said| |now left|apply ef_nil].
  plain_struct RNone; [rule|members|]. emit; [|apply ef_nil]. apply em_prim. apply (pm_int _ true 32%Z); [reflexivity|]. cbn. lia.
Qed.
Lemma side_inside t : inside yes yes side_sources (TNamed 0) t -> In t [TNamed 0; TNamed 1; text; i32].
Proof.
  induction 1 as [|t1 t2 _ IH Hd]; [now left|]. apply children_ok in Hd. destruct IH as [<-|[<-|[<-|[<-|[] ] ] ] ]; vm_compute in Hd; vm_compute; tauto.
Qed.
Lemma derived_members i fs td rule l l' : derive yes yes noupper DeriveExamples.same i = DOk td -> di_data i = DaStruct (FNamed fs) ->
  has_rule yes yes (PContainer DkNamed) (di_attrs i) rule -> (forall s, ~ AttrSpec.said yes yes (PContainer DkNamed) (di_attrs i) (SRenameAll s)) ->
  serialised_fields yes yes rule 0 fs l -> serialised_fields yes yes RNone 0 fs l' -> rule = RNone /\ l = l'.
Proof.
  intros Hd Hs Hr Hno Hl Hl'. assert (rule = RNone) as -> by (destruct Hr as [Hr|[Hr _] ]; [now apply Hno in Hr|exact Hr]). split; [reflexivity|].
  eapply serialised_fields_unique; [|exact Hl|exact Hl']. intros f Hf. destruct (derive_inv _ _ _ _ _ _ Hd) as (c & Hc & _).
  pose proof (cp_data _ _ _ _ _ Hc) as Hdata. rewrite Hs in Hdata. inversion Hdata as [|? gs Hg]; subst. eapply fields_parsed_acc; [exact Hg|exact Hf].
Qed.
Lemma paging_members rule l : has_rule yes yes (PContainer DkNamed) (di_attrs flat_paging) rule ->
  serialised_fields yes yes rule 0 [fld [] "limit" i32] l -> l = [(u "limit", fld [] "limit" i32)].
Proof.
  intros Hr Hl. eapply derived_members with (i := flat_paging); [vm_compute; reflexivity|reflexivity|exact Hr|intros s; decide_said|exact Hl|members].
Qed.
Lemma side_supported : supported_inside yes yes side_sources True (TNamed 0).
Proof.
  intros t Ht. apply side_inside in Ht. destruct Ht as [<-|[<-|[<-|[<-|[] ] ] ] ]; [| |exact I|exact I].
  - eapply is_struct; [reflexivity|decide_said|intros _ _; exact I|]. intros rule l Hr Hl.
    assert (l = [(u "text", fld [] "text" text); (u "paging", side_paging)]) as ->.
    { eapply derived_members with (i := side_query); [vm_compute; reflexivity|reflexivity|exact Hr|intros s; decide_said|exact Hl|members]. }
    split; [repeat constructor; cbn; intuition discriminate|].
    assert (Hno : forall n, ~ AttrSpec.said yes yes (PContainer DkNamed) (di_attrs (side_sources 0)) (STag n)) by (intros n; decide_said).
    intros n f [ [= <- <-]|[ [= <- <-]|[] ] ]; (split; [|apply Hno]).
    + left. split; [decide_said|]. intros t Ht. cbn [fs_attrs fld] in Ht. flag_said Ht. destruct Ht.
    + right. split; [exact I|]. split; [decide_said|]. split; [right; decide_said|]. apply shape_among; eapply ma_struct; [reflexivity|decide_said|intros t Ht; exfalso; revert Ht; decide_said|].
      intros rule' l' Hr' Hl' n f Hin. rewrite (paging_members _ _ Hr' Hl') in Hin. destruct Hin as [ [= <- <-]|[] ].
      split; [decide_said|]. cbn. intuition discriminate.
  - eapply is_struct; [reflexivity|decide_said|intros _ _; exact I|]. intros rule l Hr Hl. rewrite (paging_members _ _ Hr Hl).
    split; [repeat constructor; intros []|]. intros n f [ [= <- <-]|[] ]. split; [|decide_said].
    left. split; [decide_said|]. intros t Ht. cbn [fs_attrs fld] in Ht. flag_said Ht. destruct Ht.
Qed.

(** the same in a variant *)
Definition side_variant : variant_syn ty := vrt [] "Text" (FNamed [fld [] "text" text; side_paging]).
Definition side_search : derive_input ty := item [serde_attr [str_value "tag" "kind"]] "Search" (DaEnum [side_variant; vrt [] "All" FUnit]).
Definition search_sources : tid -> derive_input ty := sources [side_search; flat_paging].
Definition search_env : env := sources_env [side_search; flat_paging].
Definition search_json : json := JObj [(u "kind", JStr (u "Text")); (u "text", JStr (u "a")); (u "limit", JInt 5)].
Lemma search_derived : derived_inside yes yes noupper search_sources DeriveExamples.same search_env (TNamed 0).
Proof. apply sources_derived. vm_compute. reflexivity. Qed.
Lemma search_emits : emits yes yes noupper zero search_sources (TNamed 0) search_json.
Proof.
  eapply em_internal with (ms := [(u "text", JStr (u "a")); (u "limit", JInt 5)]); [a_variant| |cbn; intuition discriminate].
  eapply ep_struct with (rule := RNone); [reflexivity|rule|cbn; members|]. emit; [apply em_prim, pm_text; cbn; tauto|].
  change [(u "limit", JInt 5)] with ([(u "limit", JInt 5)] ++ []). eapply ef_flatten; [decide_said| |now left|apply ef_nil].
  plain_struct RNone; [rule|members|]. emit; [|apply ef_nil]. apply em_prim. apply (pm_int _ true 32%Z); [reflexivity|]. cbn. lia.
Qed.
Lemma search_inside t : inside yes yes search_sources (TNamed 0) t -> In t [TNamed 0; TNamed 1; text; i32].
Proof.
  induction 1 as [|t1 t2 _ IH Hd]; [now left|]. apply children_ok in Hd. destruct IH as [<-|[<-|[<-|[<-|[] ] ] ] ]; vm_compute in Hd; vm_compute; tauto.
Qed.
Lemma search_supported : supported_inside yes yes search_sources True (TNamed 0).
Proof.
  intros t Ht. apply search_inside in Ht. destruct Ht as [<-|[<-|[<-|[<-|[] ] ] ] ]; [| |exact I|exact I].
  - eapply is_enum with (w := side_variant) (rep := RepInternal (u "kind")); [reflexivity|now left|discriminate|apply rep_said_ok; vm_compute; reflexivity|discriminate|].
    intros v [<-|[<-|[] ] ] _; [|cbn; eauto]. split; [discriminate|]. intros rule l Hr Hl.
    assert (l = [(u "text", fld [] "text" text); (u "paging", side_paging)]) as ->.
    { assert (rule = RNone) as -> by (destruct Hr as [Hr|[Hr _] ]; [exfalso; revert Hr; decide_said|exact Hr]).
      eapply derived_members with (i := side_query); [vm_compute; reflexivity|reflexivity|rule|intros s; decide_said|exact Hl|members]. }
    split; [repeat constructor; cbn; intuition discriminate|].
    intros n f [ [= <- <-]|[ [= <- <-]|[] ] ]; (split; [|intros [=] ]).
    + left. split; [decide_said|]. intros t Ht. cbn [fs_attrs fld] in Ht. flag_said Ht. destruct Ht.
    + right. split; [exact I|]. split; [decide_said|]. split; [right; decide_said|]. apply shape_among; eapply ma_struct; [reflexivity|decide_said|intros t Ht; exfalso; revert Ht; decide_said|].
      intros rule' l' Hr' Hl' n f Hin. rewrite (paging_members _ _ Hr' Hl') in Hin. destruct Hin as [ [= <- <-]|[] ].
      split; [decide_said|]. cbn. intuition discriminate.
  - eapply is_struct; [reflexivity|decide_said|intros _ _; exact I|]. intros rule l Hr Hl. rewrite (paging_members _ _ Hr Hl).
    split; [repeat constructor; intros []|]. intros n f [ [= <- <-]|[] ]. split; [|decide_said].
    left. split; [decide_said|]. intros t Ht. cbn [fs_attrs fld] in Ht. flag_said Ht. destruct Ht.
Qed.

(** the same in a struct held by a variant *)
Definition held_variant : variant_syn ty := vrt [] "Text" (FUnnamed [pos_fld [] (TNamed 2)]).
Definition held_search : derive_input ty := item [serde_attr [str_value "tag" "kind"]] "Search" (DaEnum [held_variant; vrt [] "All" FUnit]).
Definition held_sources : tid -> derive_input ty := sources [held_search; flat_paging; side_query].
Definition held_env : env := sources_env [held_search; flat_paging; side_query].
Lemma held_derived : derived_inside yes yes noupper held_sources DeriveExamples.same held_env (TNamed 0).
Proof. apply sources_derived. vm_compute. reflexivity. Qed.
Lemma held_emits : emits yes yes noupper zero held_sources (TNamed 0) search_json.
Proof.
  eapply em_internal with (v := held_variant) (ms := [(u "text", JStr (u "a")); (u "limit", JInt 5)]); [a_variant| |cbn; intuition discriminate].
  eapply ep_newtype; [reflexivity|]. plain_struct RNone; [rule|members|]. emit; [apply em_prim, pm_text; cbn; tauto|].
  change [(u "limit", JInt 5)] with ([(u "limit", JInt 5)] ++ []). eapply ef_flatten; [decide_said| |now left|apply ef_nil].
  plain_struct RNone; [rule|members|]. emit; [|apply ef_nil]. apply em_prim. apply (pm_int _ true 32%Z); [reflexivity|]. cbn. lia.
Qed.
Lemma held_inside t : inside yes yes held_sources (TNamed 0) t -> In t [TNamed 0; TNamed 1; TNamed 2; text; i32].
Proof.
  induction 1 as [|t1 t2 _ IH Hd]; [now left|]. apply children_ok in Hd. destruct IH as [<-|[<-|[<-|[<-|[<-|[] ] ] ] ] ]; vm_compute in Hd; vm_compute; tauto.
Qed.
Lemma query_members rule l : has_rule yes yes (PContainer DkNamed) (di_attrs side_query) rule ->
  serialised_fields yes yes rule 0 [fld [] "text" text; side_paging] l -> l = [(u "text", fld [] "text" text); (u "paging", side_paging)].
Proof.
  intros Hr Hl. eapply derived_members with (i := side_query); [vm_compute; reflexivity|reflexivity|exact Hr|intros s; decide_said|exact Hl|members].
Qed.
Lemma held_supported : supported_inside yes yes held_sources True (TNamed 0).
Proof.
  intros t Ht. apply held_inside in Ht. destruct Ht as [<-|[<-|[<-|[<-|[<-|[] ] ] ] ] ]; [| | |exact I|exact I].
  - eapply is_enum with (w := held_variant) (rep := RepInternal (u "kind")); [reflexivity|now left|discriminate|apply rep_said_ok; vm_compute; reflexivity|discriminate|].
    intros v [<-|[<-|[] ] ] _; [|cbn; eauto]. split; [unfold field_skipped; decide_said|]. split.
    + split; [decide_said|]. intros t Ht. cbn [fs_attrs pos_fld] in Ht. flag_said Ht. destruct Ht.
    + intros tag [= <-]. eapply tb_struct; [reflexivity|]. intros rule l Hr Hl. rewrite (query_members _ _ Hr Hl). cbn. intuition discriminate.
  - eapply is_struct; [reflexivity|decide_said|intros _ _; exact I|]. intros rule l Hr Hl. rewrite (paging_members _ _ Hr Hl).
    split; [repeat constructor; intros []|]. intros n f [ [= <- <-]|[] ]. split; [|decide_said].
    left. split; [decide_said|]. intros t Ht. cbn [fs_attrs fld] in Ht. flag_said Ht. destruct Ht.
  - eapply is_struct; [reflexivity|decide_said|intros _ _; exact I|]. intros rule l Hr Hl. rewrite (query_members _ _ Hr Hl).
    split; [repeat constructor; cbn; intuition discriminate|].
    assert (Hno : forall n, ~ AttrSpec.said yes yes (PContainer DkNamed) (di_attrs (held_sources 2)) (STag n)) by (intros n; decide_said).
    intros n f [ [= <- <-]|[ [= <- <-]|[] ] ]; (split; [|apply Hno]).
    + left. split; [decide_said|]. intros t Ht. cbn [fs_attrs fld] in Ht. flag_said Ht. destruct Ht.
    + right. split; [exact I|]. split; [decide_said|]. split; [right; decide_said|]. apply shape_among; eapply ma_struct; [reflexivity|decide_said|intros t Ht; exfalso; revert Ht; decide_said|].
      intros rule' l' Hr' Hl' n f Hin. rewrite (paging_members _ _ Hr' Hl') in Hin. destruct Hin as [ [= <- <-]|[] ].
      split; [decide_said|]. cbn. intuition discriminate.
Qed.

(** ** The strict reading of oneOf *)
Lemma tuple_both : exists E t m rs items, schema_returns E t cx_new m cx_new /\ t = TTuple [TPrim PI32; TPrim PI32] /\
  items_of m = Some (Inline items) /\ kind_of items = KOneOf /\ alternatives_of items = Some rs /\
  forall S z, ~ exactly_one S rs (JInt z).
Proof.
  exists ex_env, (TTuple [TPrim PI32; TPrim PI32]). eexists _, _, _. split; [exists 5; vm_compute; reflexivity|]. do 4 (split; [reflexivity|]).
  intros S z (l1 & r & l2 & Heq & Hv & Hn). destruct l1 as [|r1 l1].
  - injection Heq as <- <-. apply (Hn _ (or_introl eq_refl)). apply va_inline, vm_integer.
  - injection Heq as <- Heq. apply (Hn _ (or_introl eq_refl)). apply va_inline, vm_integer.
Qed.

(** ** Facts about the cases *)
Lemma level_int : written_as_int yes yes (sources [i_level] 0) [vrt_disc "Low" "1"; vrt_disc "High" "20"].
Proof. split; [decide_said|]. intros v [<-|[<-|[] ] ]; reflexivity. Qed.
Lemma implicit_int : written_as_int yes yes (sources [implicit] 0) [vrt [] "Low" FUnit; vrt [] "High" FUnit].
Proof. split; [decide_said|]. intros v [<-|[<-|[] ] ]; reflexivity. Qed.
Lemma unit_or_variant : enum_variant yes yes noupper (sources [unit_or] 0) RepExternal (u "Empty") (vrt [] "Empty" FUnit).
Proof. a_variant. Qed.
Lemma tagged_units_rep : represents yes yes (di_attrs (sources [tagged_units] 0)) (RepInternal (u "kind")).
Proof. apply rep_said_ok. vm_compute. reflexivity. Qed.
Lemma adjacent_rep : represents yes yes (di_attrs (sources [i_adjacent] 0)) (RepAdjacent (u "t") (u "c")).
Proof. apply rep_said_ok. vm_compute. reflexivity. Qed.

Lemma api_unambiguous ts : (forall t, In t ts <-> names_type test_seg test_api t) -> names_unambiguous test_env (map (fun t => SMention t false) ts).
Proof.
  intros H. eapply unambiguous_same; [|exact test_unambiguous]. apply same_sites. intros t. rewrite H, <- types_written. reflexivity.
Qed.
Lemma api_case (tags : Prop) :
  describes test_env test_reason test_seg test_api test_doc /\
  (forall ts, (forall t, In t ts <-> names_type test_seg test_api t) -> names_unambiguous test_env (map (fun t => SMention t false) ts)) /\
  (exists o x, has_operation (og_paths test_doc) o /\ op_body o = Some x /\ rb_schema x = Link (u "InModule")) /\
  supported_inside yes yes test_source tags (TNamed 20) /\ derived_inside yes yes noupper test_source eval_text test_env (TNamed 20) /\
  emits yes yes noupper test_disc test_source (TNamed 20) module_json.
Proof.
  split; [exact test_describes|]. split; [exact api_unambiguous|]. split; [|split; [|split; [|exact module_emits] ] ].
  - eexists. eexists. split.
    + eexists. eexists. exists POST. split; [exists (og_paths test_doc); split; [constructor|left; reflexivity]|left; reflexivity].
    + split; reflexivity.
  - apply test_supported_ok. cbn. tauto.
  - apply (test_supported_ok (tags := True)). cbn. tauto.
Qed.
Lemma exclusive_case : exists vs w l m cx,
  (supported_inside yes yes test_source True (TNamed 6) /\ derived_inside yes yes noupper test_source eval_text test_env (TNamed 6)) /\
  di_data (test_source 6) = DaEnum vs /\ In w vs /\ ~ unit_variant w /\ represents yes yes (di_attrs (test_source 6)) (RepInternal (u "tag")) /\
  schema_returns test_env (TNamed 6) cx_new m cx /\ enum_variants yes yes noupper (test_source 6) vs l /\
  map fst l = [u "test"; u "another-test"] /\
  valid_model (cx_schemas cx) m (JObj internal_json).
Proof.
  do 2 eexists. eexists. do 2 eexists. split; [apply test_supported_ok; cbn; tauto|]. split; [reflexivity|]. split; [now left|].
  split; [intros H; discriminate H|]. split; [apply internal_represents|]. split; [exists 20; vm_compute; reflexivity|].
  split; [apply internal_variants|]. split; [reflexivity|].
  eapply vm_oneof; [now left|]. apply va_inline, vm_object.
  - intros k Hk. cbn in Hk. cbn. tauto.
  - intros k j r [[= <- <-]|[[= <- <-]|[[= <- <-]|[] ] ] ] Hg; vm_compute in Hg; injection Hg as <-.
    + apply va_inline, vm_string. intros vs [= <-]. now left.
    + apply va_inline, vm_integer.
    + eapply va_link; [vm_compute; reflexivity|]. apply vm_string. discriminate.
  - discriminate.
Qed.
