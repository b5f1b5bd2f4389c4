(** Concrete types for the theorems of PropReject.v. *)
From Verif Require Import Attr AttrSpec AttrFacts Ast Derive DeriveSpec Schema SchemaSpec Gen GenSpec DeriveFacts5 DeriveExamples.
From Verif Require Import Api ApiSpec Conformance ApiExamples SoundSpec SoundCheck SoundExamples RejectSpec RejectFacts.
From Coq Require Import Arith Lia ZArith.
Local Open Scope string_scope. Local Open Scope list_scope.

(** #[serde(tag = "t", content = "c")] enum Shape { Circle { r: i32 }, Pair(i32, i32) } *)
Definition rj_shape : derive_input ty :=
  item [serde_attr [str_value "tag" "t"; str_value "content" "c"]] "Shape"
    (DaEnum [vrt [] "Circle" (FNamed [fld [] "r" i32]); vrt [] "Pair" (FUnnamed [pos_fld [] i32; pos_fld [] i32])]).
(** #[serde(tag = "kind")] enum Event { Stop, Move { by: i32 } } *)
Definition rj_event : derive_input ty :=
  item [serde_attr [str_value "tag" "kind"]] "Event" (DaEnum [vrt [] "Stop" FUnit; vrt [] "Move" (FNamed [fld [] "by" i32])]).
(** #[serde(transparent)] struct Meters(i32, #[serde(skip)] i32) *)
Definition rj_meters : derive_input ty :=
  item [serde_attr [word_item "transparent"]] "Meters"
    (DaStruct (FUnnamed [pos_fld [] i32; pos_fld [serde_attr [word_item "skip"]] i32])).
(** #[opg(string, nullable)] struct Price(i32) *)
Definition rj_price : derive_input ty :=
  item [opg_attr [word_item "string"; word_item "nullable"]] "Price" (DaStruct (FUnnamed [pos_fld [] i32])).
(** struct Item { #[opg(string)] cost: i32 } *)
Definition rj_item : derive_input ty :=
  item [] "Item" (DaStruct (FNamed [fld [opg_attr [word_item "string"]] "cost" i32])).

Definition rj_all : list (derive_input ty) :=
  [unit_or; flat_paging; tagged_units; implicit; i_level; see_through; flat_query; rj_shape; rj_event; rj_meters; rj_price; rj_item].
Definition rj_env : env := sources_env rj_all.
Notation rj := (sources rj_all).
Notation rj_emits := (emits yes yes noupper zero rj).

Lemma rj_derived id : derive yes yes noupper DeriveExamples.same (rj id) = DOk (rj_env id).
Proof. apply (sources_derived rj_all (TNamed id)); [vm_compute; reflexivity|]. constructor. Qed.
Lemma rj_five t : t = i32 -> rj_emits t (JInt 5).
Proof. intros ->. apply em_prim. apply (pm_int _ true 32%Z); [reflexivity|]. cbn. lia. Qed.

Lemma rj_unit : enum_variant yes yes noupper (rj 0) RepExternal (u "Empty") (vrt [] "Empty" FUnit).
Proof. a_variant. Qed.
Lemma rj_signal : enum_variant yes yes noupper (rj 2) (RepInternal (u "kind")) (u "Stop") (vrt [] "Stop" FUnit).
Proof. a_variant. Qed.
Lemma rj_implicit_int : written_as_int yes yes (rj 3) [vrt [] "Low" FUnit; vrt [] "High" FUnit].
Proof. split; [decide_said|]. intros v [<-|[<-|[] ] ]; reflexivity. Qed.
Lemma rj_implicit_variants : enum_variants yes yes noupper (rj 3) [vrt [] "Low" FUnit; vrt [] "High" FUnit]
  [(u "Low", vrt [] "Low" FUnit); (u "High", vrt [] "High" FUnit)].
Proof. exists RNone. split; [rule|cbn; variants]. Qed.
Lemma rj_level_int : written_as_int yes yes (rj 4) [vrt_disc "Low" "1"; vrt_disc "High" "20"].
Proof. split; [decide_said|]. intros v [<-|[<-|[] ] ]; reflexivity. Qed.
Lemma rj_see_through : transparent_field yes yes (rj 5) (fld [] "value" i32).
Proof. exact see_through_field. Qed.
Lemma rj_meters_field : transparent_field yes yes (rj 9) (pos_fld [] i32).
Proof.
  eexists _, DkOther. do 2 (split; [reflexivity|]). split; [decide_said|]. split; [now left|].
  split; [unfold field_skipped; decide_said|]. intros f' [<-|[<-|[] ] ] H; [reflexivity|]. destruct H. unfold field_skipped. decide_said.
Qed.
Lemma rj_circle : enum_variant yes yes noupper (rj 7) (RepAdjacent (u "t") (u "c")) (u "Circle") (vrt [] "Circle" (FNamed [fld [] "r" i32])).
Proof. a_variant. Qed.
Definition circle_json : json := JObj [(u "t", JStr (u "Circle")); (u "c", JObj [(u "r", JInt 5)])].
Lemma rj_circle_emits : rj_emits (TNamed 7) circle_json.
Proof.
  eapply em_adjacent; [exact rj_circle|]. eapply ep_struct with (rule := RNone); [reflexivity|rule|members|].
  emit; [now apply rj_five|apply ef_nil].
Qed.
Lemma rj_event_rep : represents yes yes (di_attrs (rj 8)) (RepInternal (u "kind")).
Proof. apply rep_said_ok. vm_compute. reflexivity. Qed.
Lemma rj_price_said : AttrSpec.said yes yes (PContainer DkOther) (di_attrs (rj 10)) (SType ETString).
Proof. decide_said. Qed.
Lemma rj_price_nullable : AttrSpec.said yes yes (PContainer DkOther) (di_attrs (rj 10)) SNullable.
Proof. decide_said. Qed.
Lemma rj_item_emits : rj_emits (TNamed 11) (JObj [(u "cost", JInt 5)]).
Proof. plain_struct RNone; [rule|members|]. emit; [now apply rj_five|apply ef_nil]. Qed.
Lemma rj_flat_emits : rj_emits (TNamed 6) flat_json.
Proof.
  plain_struct RNone; [rule|members|]. emit; [apply em_prim, pm_text; cbn; tauto|].
  change [(u "limit", JInt 5)] with ([(u "limit", JInt 5)] ++ []). eapply ef_flatten; [decide_said| |now left|apply ef_nil].
  plain_struct RNone; [rule|members|]. emit; [now apply rj_five|apply ef_nil].
Qed.
Lemma rj_no_newtype (id : tid) vs : di_data (rj id) = DaEnum vs -> In id [7; 8] ->
  forall v, In v vs -> ~ variant_skipped yes yes v -> ~ newtype_variant v.
Proof.
  intros Hvs [<-|[<-|[] ] ]; injection Hvs as <-; intros v [<-|[<-|[] ] ] _ [f Hf]; discriminate.
Qed.

(** every one of them, and a value of it that its schema never accepts *)
Lemma rj_case :
  (forall id, derive yes yes noupper DeriveExamples.same (rj id) = DOk (rj_env id)) /\
  Forall (fun tj => rj_emits (fst tj) (snd tj) /\ rejects rj_env (fst tj) (snd tj))
    [(TNamed 0, JStr (u "Empty")); (TNamed 2, JObj [(u "kind", JStr (u "Stop"))]); (TNamed 3, JInt 1);
     (TOption (TNamed 4), JNull); (TOption (TNamed 8), JNull); (TNamed 5, JInt 5); (TNamed 9, JInt 5);
     (TNamed 7, circle_json); (TNamed 10, JInt 5); (TNamed 11, JObj [(u "cost", JInt 5)]); (TNamed 6, flat_json);
     (TWrap WTuple1 i32, JArr [JInt 5])] /\
  forall id, id < 12 -> exists m cx, schema_returns rj_env (TNamed id) cx_new m cx.
Proof.
  split; [exact rj_derived|]. split.
  - repeat apply Forall_cons; [..|apply Forall_nil]; cbn [fst snd].
    + destruct (external_unit_rejected _ _ _ zero rj _ _ 0 (rj_derived 0) _ _ _ _ eq_refl (or_intror (or_introl eq_refl))
        ltac:(discriminate) rj_unit eq_refl) as [H1 H2]. split; [exact H1|apply H2].
    + destruct (tagged_units_rejected _ _ _ zero rj _ _ 2 (rj_derived 2) _ _ _ _ _ eq_refl
        ltac:(intros w [<-|[<-|[] ] ]; reflexivity) (or_introl eq_refl) rj_signal) as [H1 H2]. split; [exact H1|apply H2].
    + split.
      * eapply em_repr with (n := u "High"); [reflexivity|exact rj_implicit_int|exact rj_implicit_variants|cbn; tauto|cbn; tauto].
      * intros cx m cx' Hr S Hv. apply (repr_exact _ _ _ rj _ _ 3 (rj_derived 3) _ _ eq_refl rj_implicit_int rj_implicit_variants _ _ _ Hr) in Hv.
        destruct Hv as (_ & n & v & [ [= <- <-]|[ [= <- <-]|[] ] ] & Hd); apply Hd; reflexivity.
    + split; [apply em_none|]. apply option_rejects. exact (repr_null _ _ _ rj _ _ 4 (rj_derived 4) _ eq_refl rj_level_int).
    + split; [apply em_none|]. apply option_rejects.
      refine (internal_null _ _ _ rj _ _ 8 (rj_derived 8) _ _ _ eq_refl (or_intror (or_introl eq_refl)) _ rj_event_rep _); [discriminate|].
      now apply (rj_no_newtype 8); [|cbn; tauto].
    + apply (struct_transparent_rejected _ _ _ zero rj _ _ 5 (rj_derived 5) _ _ _ eq_refl rj_see_through (rj_five _ eq_refl)); discriminate.
    + refine (tuple_transparent_rejected _ _ _ zero rj _ _ 9 (rj_derived 9) _ _ _ eq_refl _ rj_meters_field (rj_five _ eq_refl) _ _); discriminate.
    + split; [exact rj_circle_emits|].
      refine (adjacent_struct_rejected _ _ _ rj _ _ 7 (rj_derived 7) _ _ _ _ _ _ _ eq_refl (or_introl eq_refl) _ _ rj_circle eq_refl _ _ _);
        [discriminate|discriminate|]. now apply (rj_no_newtype 7); [|cbn; tauto].
    + split; [eapply em_newtype; [reflexivity|now apply rj_five]|]. intros cx m cx' Hr S Hv.
      apply (newtype_flag_exact _ _ _ rj _ _ 10 (rj_derived 10) _ _ eq_refl rj_price_said _ _ _ Hr) in Hv.
      destruct Hv as [Hv|[Hv _] ]; [exact Hv|discriminate].
    + split; [exact rj_item_emits|].
      eapply (field_flag_exact _ _ _ rj _ _ 11 (rj_derived 11) _ _ RNone (u "cost") _ ETString eq_refl);
        [rule|members|constructor; [intros []|constructor]|now left|decide_said|now left|intros []|discriminate].
    + split; [exact rj_flat_emits|].
      eapply (flattened_rejected _ _ _ rj _ _ 6 (rj_derived 6) _ RNone _ (u "paging") _ _ eq_refl);
        [rule|members|now right; left|intros [H|H]; revert H; decide_said|intros [H|[H|[] ] ]; discriminate H].
    + split; [apply em_tuple1; now apply rj_five|apply tuple1_rejected].
  - intros id Hid. do 12 (destruct id as [|id]; [do 2 eexists; exists 20; vm_compute; reflexivity|]). lia.
Qed.
