(** The tests of the repository (test_suite/tests), run against the model: the derive is applied to the same items, the
    generated code is run, and the result is serialised and compared with the expected YAML (Expected.v).
    These are tests of the model's fidelity, not proofs of properties. *)
From Verif Require Import Attr AttrSpec Ast Derive DeriveSpec Schema Gen GenSpec Doc Ser Api SerSpec ApiSpec DeriveExamples Expected.
Local Open Scope string_scope. Local Open Scope list_scope.

(** the value of [now()] in the test *)
Definition eval_text (s : str) : str := if str_eqb s (u "now()") then u "1599083980" else s.
Definition run_derive : derive_input ty -> derive_result := derive yes yes noupper eval_text.
Definition td_of (i : derive_input ty) : typedef :=
  match run_derive i with DOk td => td | _ => {| td_ident := u "FAILED"; td_inline := false; td_body := McModel None (DcOneOf []) |} end.

(** ** test_suite/tests/models.rs *)
Definition string : ty := TPrim PString.
Definition t_new_type := item [opg_attr [described "New type description"; str_value "format" "uuid"; str_value "example" "000-000"]] "NewType"
  (DaStruct (FUnnamed [pos_fld [] string])).
Definition t_new_new_type := item [opg_attr [described "Override description"]] "NewNewType" (DaStruct (FUnnamed [pos_fld [] (TNamed 0)])).
Definition t_simple_struct := item [serde_attr [str_value "rename_all" "camelCase"]] "SimpleStruct"
  (DaStruct (FNamed [fld [] "asd" i32; fld [opg_attr [word_item "optional"]] "hello_camel_case" (TNamed 0)])).
Definition t_string_enum := item [serde_attr [str_value "rename_all" "kebab-case"]; opg_attr [described "New type description"]] "StringEnumTest"
  (DaEnum [vrt [] "First" FUnit; vrt [] "Second" FUnit; vrt [] "HelloWorld" FUnit]).
Definition t_external := item [serde_attr [str_value "rename_all" "kebab-case"]] "ExternallyTaggedEnum"
  (DaEnum [vrt [] "Test" (FUnnamed [pos_fld [] string]);
           vrt [] "AnotherTest" (FUnnamed [pos_fld [] string; pos_fld [opg_attr [described "Second"]] string])]).
Definition t_untagged := item [serde_attr [word_item "untagged"]] "UntaggedEnumTest"
  (DaEnum [vrt [] "First" (FNamed [fld [] "value" (TNamed 0)]);
           vrt [opg_attr [described "Very simple variant"]] "Second"
             (FNamed [fld [opg_attr [described "Very simple struct"; word_item "inline"]] "another" (TNamed 2)])]).
Definition t_internal := item [serde_attr [str_value "tag" "tag"; str_value "rename_all" "kebab-case"]] "InternallyTaggedEnum"
  (DaEnum [vrt [] "Test" (FUnnamed [pos_fld [] (TNamed 2)]); vrt [] "AnotherTest" (FNamed [fld [] "field" string])]).
Definition t_adjacent := item [serde_attr [str_value "tag" "tag"; str_value "content" "content"; str_value "rename_all" "kebab-case"]] "AdjacentlyTaggedEnum"
  (DaEnum [vrt [] "Test" (FUnnamed [pos_fld [] string]); vrt [] "AnotherTest" (FUnnamed [pos_fld [] (TNamed 0); pos_fld [] (TNamed 0)])]).
Definition t_type_changed := item [serde_attr [str_value "rename_all" "camelCase"]] "TypeChangedStruct"
  (DaStruct (FNamed [fld [opg_attr [word_item "integer"]] "asd" string])).
Definition t_inner := item [] "StructWithInner"
  (DaStruct (FNamed [fld [] "field" (TOption string); fld [opg_attr [word_item "optional"]] "super_optional" (TOption (TOption string));
                     fld [] "boxed" (TWrap WBox (TOption i32))])).
Definition t_nullable_newtype := item [] "NullableNewtype" (DaStruct (FUnnamed [pos_fld [] (TOption i32)])).
Definition t_with_nullable := item [] "StructWithNullable" (DaStruct (FNamed [fld [opg_attr [word_item "nullable"]] "field" i32])).
Definition t_recursive := item [] "Recursive" (DaStruct (FNamed [fld [] "recursive_field" (TOption (TWrap WBox (TNamed 12)))])).
Definition t_complex := item [serde_attr [str_value "rename_all" "snake_case"]; opg_attr [described "Credit history kind"]] "CreditHistoryMetaResponse"
  (DaEnum [vrt [serde_attr [str_value "rename_all" "camelCase"]] "CreateCredit"
             (FNamed [fld [] "pledge_currency" (TOption string); fld [] "pledge_amount" (TOption string); fld [] "credit_currency" string; fld [] "credit_amount" string]);
           vrt [] "CloseCredit" FUnit;
           vrt [serde_attr [str_value "rename_all" "camelCase"]] "FreezePledge" (FNamed [fld [] "pledge_currency" string; fld [] "pledge_amount" string])]).
Definition t_example_with := item [opg_attr [str_value "example_with" "now()"]] "ExampleWith" (DaStruct (FUnnamed [pos_fld [] (TPrim PU64)])).
(** instances of generic structs at [i32] *)
Definition t_generic := item [opg_attr [described "Test"]] "GenericStruct" (DaStruct (FNamed [fld [] "body" i32])).
Definition t_generic_ref := item [] "GenericStructWithRef" (DaStruct (FNamed [fld [] "message" (TWrap WRef (TPrim PStr)); fld [] "test" i32])).
(** the field's type, [serde_yaml::Value], plays no role *)
Definition t_any := item [] "StructWithAny" (DaStruct (FNamed [fld [opg_attr [word_item "any"]] "field" (TNamed 99)])).
(** test_suite/tests/repr.rs; [serde_repr]'s attribute is [repr] *)
Definition t_repr := item [{| at_path := ident "repr"; at_meta := PmList [word_item "i32"] |}] "LedgerAccountId"
  (DaEnum [vrt_disc "IssuedLoansAndCredits" "5586"; vrt_disc "LiabilitiesForSale" "4909"; vrt_disc "InterestRateOnIssuedLoansAndCredits" "55861";
           vrt_disc "OtherIncomesFromCoreActivity" "819"; vrt_disc "FinesOnIssuedLoansAndCredits" "55862"; vrt_disc "InterestIncomes" "700";
           vrt_disc "CurrentAccounts" "651"; vrt_disc "Pledge" "8"]).
(** test_suite/tests/api.rs *)
Definition t_simple_enum := item [serde_attr [str_value "rename_all" "camelCase"]; opg_attr [described "Simple enum"]] "SimpleEnum"
  (DaEnum [vrt [] "Test" FUnit; vrt [] "Another" FUnit; vrt [] "Yay" FUnit]).
Definition t_in_module := item [] "InModule" (DaStruct (FNamed [fld [] "field" string; fld [] "second" (TNamed 21)])).
Definition t_test := item [] "Test" (DaStruct (FNamed [fld [] "another_field" (TOption string)])).

Definition items : list (derive_input ty) :=
  [t_new_type; t_new_new_type; t_simple_struct; t_string_enum; t_external; t_untagged; t_internal; t_adjacent; t_type_changed; t_inner;
   t_nullable_newtype; t_with_nullable; t_recursive; t_complex; t_example_with; t_generic; t_generic_ref; t_any; t_repr; t_simple_enum; t_in_module; t_test].
Definition test_defs : list typedef := Eval vm_compute in map td_of items.
Definition test_env : env := fun id => nth id test_defs {| td_ident := u "FAILED"; td_inline := false; td_body := McModel None (DcOneOf []) |}.
Example all_derived : map run_derive items = map DOk test_defs.
Proof. vm_compute. reflexivity. Qed.

(** the serialised schema of a type *)
Definition schema (t : ty) : option value :=
  match get_schema test_env 50 t cx_new with Ok (m, _) => Some (ser_model m) | Fuel => None end.
Example newtype : schema (TNamed 0) = Some y_newtype /\ schema (TNamed 1) = Some y_newtype2. Proof. split; vm_compute; reflexivity. Qed.
Example simple_struct : schema (TNamed 2) = Some y_simple_struct. Proof. vm_compute; reflexivity. Qed.
Example string_enum : schema (TNamed 3) = Some y_string_enum. Proof. vm_compute; reflexivity. Qed.
Example externally_enum : schema (TNamed 4) = Some y_externally_enum. Proof. vm_compute; reflexivity. Qed.
Example untagged_enum : schema (TNamed 5) = Some y_untagged_enum. Proof. vm_compute; reflexivity. Qed.
Example internally_tagged_enum : schema (TNamed 6) = Some y_internally_tagged_enum. Proof. vm_compute; reflexivity. Qed.
Example adjacently_tagged_enum : schema (TNamed 7) = Some y_adjacently_tagged_enum. Proof. vm_compute; reflexivity. Qed.
Example type_changed_field : schema (TNamed 8) = Some y_type_changed_field. Proof. vm_compute; reflexivity. Qed.
Example tuples : schema (TTuple [string; TPrim PU64]) = Some y_tuples. Proof. vm_compute; reflexivity. Qed.
Example inner_type : schema (TNamed 9) = Some y_inner_type. Proof. vm_compute; reflexivity. Qed.
Example hash_map : schema (TDict KHashMap i32) = Some y_hash_map. Proof. vm_compute; reflexivity. Qed.
Example nullable_newtype : schema (TNamed 10) = Some y_nullable_newtype. Proof. vm_compute; reflexivity. Qed.
Example nullable_field : schema (TNamed 11) = Some y_nullable_field. Proof. vm_compute; reflexivity. Qed.
(** [recursive_field] is not marked as a test in the repository: it would not return *)
Example recursive_field : schema (TNamed 12) = None. Proof. vm_compute; reflexivity. Qed.
Example complex_enum : schema (TNamed 13) = Some y_complex_enum. Proof. vm_compute; reflexivity. Qed.
Example example_with : schema (TNamed 14) = Some y_example_with. Proof. vm_compute; reflexivity. Qed.
Example generic_struct : schema (TNamed 15) = Some y_generic_struct. Proof. vm_compute; reflexivity. Qed.
Example generic_struct_with_ref : schema (TNamed 16) = Some y_generic_struct_with_ref. Proof. vm_compute; reflexivity. Qed.
Example struct_with_any_field : schema (TNamed 17) = Some y_struct_with_any_field. Proof. vm_compute; reflexivity. Qed.
Example null_response : schema (TPrim PUnit) = Some y_null_response. Proof. vm_compute; reflexivity. Qed.
Example repr_enum : schema (TNamed 18) = Some y_repr_enum. Proof. vm_compute; reflexivity. Qed.

Definition manual : model :=
  Model (Some (u "Some type")) (Single (MType false (TdObject (MObject
    (bm_insert (u "amount") (Inline (Model None (Single (MType false (TdString {| mst_variants := None; mst_data := {| ms_format := None; ms_example := None |} |})))))
      (bm_insert (u "id") (Link (u "TransactionId")) [])) None [u "id"; u "amount"; u "currency"; u "paymentType"; u "status"])))).
Example manual_serialization : ser_model manual = y_manual_serialization. Proof. vm_compute; reflexivity. Qed.
Definition sub : model := describe_type (DtString (Some (u "Test")) None None None).
Definition macro_model : describe :=
  DtObject (Some (u "Hello world"))
    [(u "id", true, DvLink (u "TransactionId"));
     (u "test", true, DvInline (DtObject None [(u "sub", false, DvLink (u "TransactionId"))]));
     (u "test_object", false, DvInline (DtString None (Some (u "uuid")) None (Some [u "aaa"; u "bbb"])));
     (u "test_integer", false, DvInline (DtInteger None (Some (u "timestamp")) (Some (u "1591956576404"))));
     (u "test_boolean", false, DvInline (DtBoolean None));
     (u "test_array", false, DvInline (DtArray None (DvInline (DtString None None None None))));
     (u "test_raw_model", false, DvInline (DtRawModel sub))].
Example describe_type_macro : ser_model (describe_type macro_model) = y_describe_type_macro. Proof. vm_compute; reflexivity. Qed.
Definition some_response : model := describe_type (DtObject None [(u "id", false, DvLink (u "TransactionId"))]).
Definition transaction_id : model :=
  describe_type (DtString (Some (u "Transaction UUID")) (Some (u "uuid")) (Some (u "000..000-000..000-00..00")) None).
Example valid_models_context :
  verify_schemas (cx_schemas (add_model (u "SomeResponse") some_response (add_model (u "TransactionId") transaction_id cx_new))) = None.
Proof. vm_compute; reflexivity. Qed.
Example invalid_models_context : verify_schemas (cx_schemas (add_model (u "SomeResponse") some_response cx_new)) = Some (u "TransactionId").
Proof. vm_compute; reflexivity. Qed.

(** ** test_suite/tests/api.rs *)
Definition test_auth : security_scheme := ApiKey {| ak_in := InQuery; ak_name := u "X-MY-SUPER-API"; ak_description := None |}.
(** how the url segments of the test are matched *)
Definition test_seg (l : list tree) : option segment :=
  match l with
  | [TkLit (TlStr s)] =>
      if str_eqb s (u "test") then Some (SegLit (u "test"))
      else if str_eqb s (u "callback_url") then Some (SegLit (u "callback_url"))
      else if str_eqb s (u "hello") then Some (SegLit (u "hello"))
      else if str_eqb s (u "world") then Some (SegLit (u "world"))
      else None
  | [TkGr Brace [TkId s; _; _]] => if str_eqb s (u "paramTest") then Some (SegNamed (u "paramTest") string) else None
  | [TkId a; TkPu b; TkId c] => if str_eqb (a ++ b ++ c) (u "uuid::Uuid") then Some (SegType (u "uuid::Uuid") (TPrim PUuid)) else None
  | _ => None
  end.
Definition test_reason (c : N) : option str := if N.eqb c 200 then Some (u "OK") else None.
Definition tok_str (s : String.string) : utok := UTok (tk_str s).
Definition test_api : api :=
  [ScInfo [IpTitle (u "My super API"); IpVersion (u "0.0.0")];
   ScTags [(u "internal", None); (u "admin", Some (u "Super admin methods"))];
   ScServers [(u "https://my.super.server.com/v1", None); (u "http://test/123", None)];
   ScSecurity
     [SdHttp (u "bearerAuth") [HpScheme KBearer; HpFormat (u "JWT"); HpDescription (u "Test description")];
      SdHttp (u "basicAuth") [HpScheme KBasic; HpDescription (u "Another test description")];
      SdApiKey (u "ApiKeyAuth") [KpIn InQuery; KpName (u "X-API-KEY"); KpDescription (u "And another test description")]];
   ScPaths
     [Build_path_decl_of [tok_str "test"; USlash; UTok (tk_id "uuid"); UTok (tk_pu "::"); UTok (tk_id "Uuid")]
        [PvMethod POST
           [OpId (u "test"); OpSecurity [[SiIdent (u "test_auth") test_auth []; SiLit (u "basicAuth") []]]; OpDeprecated true;
            OpBody (BodyType (TNamed 20)); OpResponse 200 None (RsType (TSeq KVec string));
            OpCallbacks
              [CbIdent (u "myCallback")
                 [Build_path_decl_of [tok_str "callback_url"]
                    [PvMethod POST [OpBody (BodyType (TNamed 20)); OpResponse 200 None (RsType (TSeq KVec string))]]]] false]];
      Build_path_decl_of [tok_str "hello"; USlash; tok_str "world"; USlash; UTok (TkGr Brace [tk_id "paramTest"; tk_pu ":"; tk_id "String"])]
        [PvSummary (u "Some test group of requests"); PvDescription (u "Another test description");
         PvParameters [PdHeader (u "x-request-id") [PpDescription (u "Test")]; PdQuery (u "test") i32 []; PdHeader (u "asd") []];
         PvMethod GET
           [OpId (u "testGet"); OpTags [u "internal"]; OpSummary (u "Small summary"); OpDescription (u "Small description");
            OpParameters [PdQuery (u "someParam") (TPrim PU32) [PpDescription (u "Test"); PpDeprecated true]];
            OpResponse 200 (Some (u "Custom response desc")) (RsType string)];
         PvMethod POST
           [OpId (u "testPost"); OpTags [u "admin"];
            OpBody (BodyProps [BpDescription (u "Some interesting description"); BpSchema string; BpRequired true]);
            OpResponse 200 None (RsType (TNamed 19))];
         PvMethod DELETE [OpResponse 200 None RsNone];
         PvMethod OPTIONS [OpResponse 200 None RsUnit]]]].
Definition run_api (a : api) : option value :=
  match describe_api test_env 50 test_reason test_seg a with Done d => Some (ser_opg d) | _ => None end.
Example expands_normally : run_api test_api = Some y_expands_normally.
Proof. vm_compute. reflexivity. Qed.
