(** The documents expected by the tests of the repository (test_suite/tests), transcribed from their YAML. *)
From Verif Require Import Ser.
Local Open Scope string_scope. Local Open Scope list_scope. Local Open Scope N_scope.

(** test_suite/tests/models.rs *)
Definition y_newtype : value :=
  VMap [(VStr (u "description"), VStr (u "New type description"));
  (VStr (u "type"), VStr (u "string"));
  (VStr (u "format"), VStr (u "uuid"));
  (VStr (u "example"), VStr (u "000-000"))].
Definition y_newtype2 : value :=
  VMap [(VStr (u "description"), VStr (u "Override description"));
  (VStr (u "type"), VStr (u "string"));
  (VStr (u "format"), VStr (u "uuid"));
  (VStr (u "example"), VStr (u "000-000"))].
Definition y_simple_struct : value :=
  VMap [(VStr (u "type"), VStr (u "object"));
  (VStr (u "properties"), VMap [(VStr (u "asd"), VMap [(VStr (u "type"), VStr (u "integer"));
      (VStr (u "format"), VStr (u "int32"))]);
    (VStr (u "helloCamelCase"), VMap [(VStr (u "$ref"), VStr (u "#/components/schemas/NewType"))])]);
  (VStr (u "required"), VSeq [VStr (u "asd")])].
Definition y_string_enum : value :=
  VMap [(VStr (u "description"), VStr (u "New type description"));
  (VStr (u "type"), VStr (u "string"));
  (VStr (u "enum"), VSeq [VStr (u "first"); VStr (u "second"); VStr (u "hello-world")]);
  (VStr (u "example"), VStr (u "first"))].
Definition y_externally_enum : value :=
  VMap [(VStr (u "type"), VStr (u "object"));
  (VStr (u "additionalProperties"), VMap [(VStr (u "oneOf"), VSeq [VMap [(VStr (u "type"), VStr (u "string"))]; VMap [(VStr (u "type"), VStr (u "array"));
        (VStr (u "items"), VMap [(VStr (u "oneOf"), VSeq [VMap [(VStr (u "type"), VStr (u "string"))]; VMap [(VStr (u "description"), VStr (u "Second"));
              (VStr (u "type"), VStr (u "string"))]])])]])])].
Definition y_untagged_enum : value :=
  VMap [(VStr (u "oneOf"), VSeq [VMap [(VStr (u "type"), VStr (u "object"));
      (VStr (u "properties"), VMap [(VStr (u "value"), VMap [(VStr (u "$ref"), VStr (u "#/components/schemas/NewType"))])]);
      (VStr (u "required"), VSeq [VStr (u "value")])]; VMap [(VStr (u "description"), VStr (u "Very simple variant"));
      (VStr (u "type"), VStr (u "object"));
      (VStr (u "properties"), VMap [(VStr (u "another"), VMap [(VStr (u "description"), VStr (u "Very simple struct"));
          (VStr (u "type"), VStr (u "object"));
          (VStr (u "properties"), VMap [(VStr (u "asd"), VMap [(VStr (u "type"), VStr (u "integer"));
              (VStr (u "format"), VStr (u "int32"))]);
            (VStr (u "helloCamelCase"), VMap [(VStr (u "$ref"), VStr (u "#/components/schemas/NewType"))])]);
          (VStr (u "required"), VSeq [VStr (u "asd")])])]);
      (VStr (u "required"), VSeq [VStr (u "another")])]])].
Definition y_internally_tagged_enum : value :=
  VMap [(VStr (u "oneOf"), VSeq [VMap [(VStr (u "type"), VStr (u "object"));
      (VStr (u "properties"), VMap [(VStr (u "asd"), VMap [(VStr (u "type"), VStr (u "integer"));
          (VStr (u "format"), VStr (u "int32"))]);
        (VStr (u "helloCamelCase"), VMap [(VStr (u "$ref"), VStr (u "#/components/schemas/NewType"))]);
        (VStr (u "tag"), VMap [(VStr (u "description"), VStr (u "InternallyTaggedEnum type variant"));
          (VStr (u "type"), VStr (u "string"));
          (VStr (u "enum"), VSeq [VStr (u "test")]);
          (VStr (u "example"), VStr (u "test"))])]);
      (VStr (u "required"), VSeq [VStr (u "asd"); VStr (u "tag")])]; VMap [(VStr (u "type"), VStr (u "object"));
      (VStr (u "properties"), VMap [(VStr (u "field"), VMap [(VStr (u "type"), VStr (u "string"))]);
        (VStr (u "tag"), VMap [(VStr (u "description"), VStr (u "InternallyTaggedEnum type variant"));
          (VStr (u "type"), VStr (u "string"));
          (VStr (u "enum"), VSeq [VStr (u "another-test")]);
          (VStr (u "example"), VStr (u "another-test"))])]);
      (VStr (u "required"), VSeq [VStr (u "field"); VStr (u "tag")])]])].
Definition y_adjacently_tagged_enum : value :=
  VMap [(VStr (u "type"), VStr (u "object"));
  (VStr (u "properties"), VMap [(VStr (u "content"), VMap [(VStr (u "oneOf"), VSeq [VMap [(VStr (u "type"), VStr (u "string"))]; VMap [(VStr (u "type"), VStr (u "array"));
          (VStr (u "items"), VMap [(VStr (u "oneOf"), VSeq [VMap [(VStr (u "$ref"), VStr (u "#/components/schemas/NewType"))]; VMap [(VStr (u "$ref"), VStr (u "#/components/schemas/NewType"))]])])]])]);
    (VStr (u "tag"), VMap [(VStr (u "description"), VStr (u "AdjacentlyTaggedEnum type variant"));
      (VStr (u "type"), VStr (u "string"));
      (VStr (u "enum"), VSeq [VStr (u "test"); VStr (u "another-test")]);
      (VStr (u "example"), VStr (u "test"))])]);
  (VStr (u "required"), VSeq [VStr (u "tag"); VStr (u "content")])].
Definition y_type_changed_field : value :=
  VMap [(VStr (u "type"), VStr (u "object"));
  (VStr (u "properties"), VMap [(VStr (u "asd"), VMap [(VStr (u "type"), VStr (u "integer"))])]);
  (VStr (u "required"), VSeq [VStr (u "asd")])].
Definition y_tuples : value :=
  VMap [(VStr (u "type"), VStr (u "array"));
  (VStr (u "items"), VMap [(VStr (u "oneOf"), VSeq [VMap [(VStr (u "type"), VStr (u "string"))]; VMap [(VStr (u "type"), VStr (u "integer"));
        (VStr (u "format"), VStr (u "uint64"))]])])].
Definition y_inner_type : value :=
  VMap [(VStr (u "type"), VStr (u "object"));
  (VStr (u "properties"), VMap [(VStr (u "boxed"), VMap [(VStr (u "nullable"), VBool true);
      (VStr (u "type"), VStr (u "integer"));
      (VStr (u "format"), VStr (u "int32"))]);
    (VStr (u "field"), VMap [(VStr (u "nullable"), VBool true);
      (VStr (u "type"), VStr (u "string"))]);
    (VStr (u "super_optional"), VMap [(VStr (u "nullable"), VBool true);
      (VStr (u "type"), VStr (u "string"))])]);
  (VStr (u "required"), VSeq [VStr (u "field"); VStr (u "boxed")])].
Definition y_hash_map : value :=
  VMap [(VStr (u "type"), VStr (u "object"));
  (VStr (u "additionalProperties"), VMap [(VStr (u "type"), VStr (u "integer"));
    (VStr (u "format"), VStr (u "int32"))])].
Definition y_nullable_newtype : value :=
  VMap [(VStr (u "nullable"), VBool true);
  (VStr (u "type"), VStr (u "integer"));
  (VStr (u "format"), VStr (u "int32"))].
Definition y_nullable_field : value :=
  VMap [(VStr (u "type"), VStr (u "object"));
  (VStr (u "properties"), VMap [(VStr (u "field"), VMap [(VStr (u "nullable"), VBool true);
      (VStr (u "type"), VStr (u "integer"));
      (VStr (u "format"), VStr (u "int32"))])]);
  (VStr (u "required"), VSeq [VStr (u "field")])].
Definition y_example_with : value :=
  VMap [(VStr (u "type"), VStr (u "integer"));
  (VStr (u "format"), VStr (u "uint64"));
  (VStr (u "example"), VStr (u "1599083980"))].
Definition y_generic_struct : value :=
  VMap [(VStr (u "description"), VStr (u "Test"));
  (VStr (u "type"), VStr (u "object"));
  (VStr (u "properties"), VMap [(VStr (u "body"), VMap [(VStr (u "type"), VStr (u "integer"));
      (VStr (u "format"), VStr (u "int32"))])]);
  (VStr (u "required"), VSeq [VStr (u "body")])].
Definition y_generic_struct_with_ref : value :=
  VMap [(VStr (u "type"), VStr (u "object"));
  (VStr (u "properties"), VMap [(VStr (u "message"), VMap [(VStr (u "type"), VStr (u "string"))]);
    (VStr (u "test"), VMap [(VStr (u "type"), VStr (u "integer"));
      (VStr (u "format"), VStr (u "int32"))])]);
  (VStr (u "required"), VSeq [VStr (u "message"); VStr (u "test")])].
Definition y_struct_with_any_field : value :=
  VMap [(VStr (u "type"), VStr (u "object"));
  (VStr (u "properties"), VMap [(VStr (u "field"), VMap [])]);
  (VStr (u "required"), VSeq [VStr (u "field")])].
Definition y_null_response : value :=
  VMap [(VStr (u "description"), VStr (u "Always `null`"));
  (VStr (u "nullable"), VBool true);
  (VStr (u "type"), VStr (u "string"));
  (VStr (u "format"), VStr (u "null"))].
Definition y_complex_enum : value :=
  VMap [(VStr (u "description"), VStr (u "Credit history kind"));
  (VStr (u "type"), VStr (u "object"));
  (VStr (u "additionalProperties"), VMap [(VStr (u "description"), VStr (u "Credit history kind"));
    (VStr (u "oneOf"), VSeq [VMap [(VStr (u "type"), VStr (u "object"));
        (VStr (u "properties"), VMap [(VStr (u "creditAmount"), VMap [(VStr (u "type"), VStr (u "string"))]);
          (VStr (u "creditCurrency"), VMap [(VStr (u "type"), VStr (u "string"))]);
          (VStr (u "pledgeAmount"), VMap [(VStr (u "nullable"), VBool true);
            (VStr (u "type"), VStr (u "string"))]);
          (VStr (u "pledgeCurrency"), VMap [(VStr (u "nullable"), VBool true);
            (VStr (u "type"), VStr (u "string"))])]);
        (VStr (u "required"), VSeq [VStr (u "pledgeCurrency"); VStr (u "pledgeAmount"); VStr (u "creditCurrency"); VStr (u "creditAmount")])]; VMap [(VStr (u "type"), VStr (u "string"));
        (VStr (u "enum"), VSeq [VStr (u "close_credit")]);
        (VStr (u "example"), VStr (u "close_credit"))]; VMap [(VStr (u "type"), VStr (u "object"));
        (VStr (u "properties"), VMap [(VStr (u "pledgeAmount"), VMap [(VStr (u "type"), VStr (u "string"))]);
          (VStr (u "pledgeCurrency"), VMap [(VStr (u "type"), VStr (u "string"))])]);
        (VStr (u "required"), VSeq [VStr (u "pledgeCurrency"); VStr (u "pledgeAmount")])]])])].
Definition y_manual_serialization : value :=
  VMap [(VStr (u "description"), VStr (u "Some type"));
  (VStr (u "type"), VStr (u "object"));
  (VStr (u "properties"), VMap [(VStr (u "amount"), VMap [(VStr (u "type"), VStr (u "string"))]);
    (VStr (u "id"), VMap [(VStr (u "$ref"), VStr (u "#/components/schemas/TransactionId"))])]);
  (VStr (u "required"), VSeq [VStr (u "id"); VStr (u "amount"); VStr (u "currency"); VStr (u "paymentType"); VStr (u "status")])].
Definition y_describe_type_macro : value :=
  VMap [(VStr (u "description"), VStr (u "Hello world"));
  (VStr (u "type"), VStr (u "object"));
  (VStr (u "properties"), VMap [(VStr (u "id"), VMap [(VStr (u "$ref"), VStr (u "#/components/schemas/TransactionId"))]);
    (VStr (u "test"), VMap [(VStr (u "type"), VStr (u "object"));
      (VStr (u "properties"), VMap [(VStr (u "sub"), VMap [(VStr (u "$ref"), VStr (u "#/components/schemas/TransactionId"))])])]);
    (VStr (u "test_array"), VMap [(VStr (u "type"), VStr (u "array"));
      (VStr (u "items"), VMap [(VStr (u "type"), VStr (u "string"))])]);
    (VStr (u "test_boolean"), VMap [(VStr (u "type"), VStr (u "boolean"))]);
    (VStr (u "test_integer"), VMap [(VStr (u "type"), VStr (u "integer"));
      (VStr (u "format"), VStr (u "timestamp"));
      (VStr (u "example"), VStr (u "1591956576404"))]);
    (VStr (u "test_object"), VMap [(VStr (u "type"), VStr (u "string"));
      (VStr (u "enum"), VSeq [VStr (u "aaa"); VStr (u "bbb")]);
      (VStr (u "format"), VStr (u "uuid"))]);
    (VStr (u "test_raw_model"), VMap [(VStr (u "description"), VStr (u "Test"));
      (VStr (u "type"), VStr (u "string"))])]);
  (VStr (u "required"), VSeq [VStr (u "id"); VStr (u "test")])].
(** test_suite/tests/repr.rs *)
Definition y_repr_enum : value :=
  VMap [(VStr (u "oneOf"), VSeq [VMap [(VStr (u "description"), VStr (u "IssuedLoansAndCredits variant"));
      (VStr (u "type"), VStr (u "integer"));
      (VStr (u "example"), VStr (u "5586"))]; VMap [(VStr (u "description"), VStr (u "LiabilitiesForSale variant"));
      (VStr (u "type"), VStr (u "integer"));
      (VStr (u "example"), VStr (u "4909"))]; VMap [(VStr (u "description"), VStr (u "InterestRateOnIssuedLoansAndCredits variant"));
      (VStr (u "type"), VStr (u "integer"));
      (VStr (u "example"), VStr (u "55861"))]; VMap [(VStr (u "description"), VStr (u "OtherIncomesFromCoreActivity variant"));
      (VStr (u "type"), VStr (u "integer"));
      (VStr (u "example"), VStr (u "819"))]; VMap [(VStr (u "description"), VStr (u "FinesOnIssuedLoansAndCredits variant"));
      (VStr (u "type"), VStr (u "integer"));
      (VStr (u "example"), VStr (u "55862"))]; VMap [(VStr (u "description"), VStr (u "InterestIncomes variant"));
      (VStr (u "type"), VStr (u "integer"));
      (VStr (u "example"), VStr (u "700"))]; VMap [(VStr (u "description"), VStr (u "CurrentAccounts variant"));
      (VStr (u "type"), VStr (u "integer"));
      (VStr (u "example"), VStr (u "651"))]; VMap [(VStr (u "description"), VStr (u "Pledge variant"));
      (VStr (u "type"), VStr (u "integer"));
      (VStr (u "example"), VStr (u "8"))]])].
(** test_suite/tests/api.rs *)
Definition y_expands_normally : value :=
  VMap [(VStr (u "openapi"), VStr (u "3.0.3"));
  (VStr (u "info"), VMap [(VStr (u "title"), VStr (u "My super API"));
    (VStr (u "version"), VStr (u "0.0.0"))]);
  (VStr (u "tags"), VSeq [VMap [(VStr (u "name"), VStr (u "admin"));
      (VStr (u "description"), VStr (u "Super admin methods"))]; VMap [(VStr (u "name"), VStr (u "internal"))]]);
  (VStr (u "servers"), VSeq [VMap [(VStr (u "url"), VStr (u "https://my.super.server.com/v1"))]; VMap [(VStr (u "url"), VStr (u "http://test/123"))]]);
  (VStr (u "paths"), VMap [(VStr (u "/test/{uuid}"), VMap [(VStr (u "post"), VMap [(VStr (u "operationId"), VStr (u "test"));
        (VStr (u "deprecated"), VBool true);
        (VStr (u "security"), VSeq [VMap [(VStr (u "basicAuth"), VSeq []);
            (VStr (u "test_auth"), VSeq [])]]);
        (VStr (u "requestBody"), VMap [(VStr (u "required"), VBool true);
          (VStr (u "description"), VStr (u ""));
          (VStr (u "content"), VMap [(VStr (u "application/json"), VMap [(VStr (u "schema"), VMap [(VStr (u "$ref"), VStr (u "#/components/schemas/InModule"))])])])]);
        (VStr (u "responses"), VMap [(VNum 200, VMap [(VStr (u "description"), VStr (u "OK"));
            (VStr (u "content"), VMap [(VStr (u "application/json"), VMap [(VStr (u "schema"), VMap [(VStr (u "type"), VStr (u "array"));
                  (VStr (u "items"), VMap [(VStr (u "type"), VStr (u "string"))])])])])])]);
        (VStr (u "callbacks"), VMap [(VStr (u "myCallback"), VMap [(VStr (u "/callback_url"), VMap [(VStr (u "post"), VMap [(VStr (u "requestBody"), VMap [(VStr (u "required"), VBool true);
                  (VStr (u "description"), VStr (u ""));
                  (VStr (u "content"), VMap [(VStr (u "application/json"), VMap [(VStr (u "schema"), VMap [(VStr (u "$ref"), VStr (u "#/components/schemas/InModule"))])])])]);
                (VStr (u "responses"), VMap [(VNum 200, VMap [(VStr (u "description"), VStr (u "OK"));
                    (VStr (u "content"), VMap [(VStr (u "application/json"), VMap [(VStr (u "schema"), VMap [(VStr (u "type"), VStr (u "array"));
                          (VStr (u "items"), VMap [(VStr (u "type"), VStr (u "string"))])])])])])])])])])])]);
      (VStr (u "parameters"), VSeq [VMap [(VStr (u "name"), VStr (u "uuid"));
          (VStr (u "in"), VStr (u "path"));
          (VStr (u "required"), VBool true);
          (VStr (u "schema"), VMap [(VStr (u "description"), VStr (u "UUID ver. 4 [rfc](https://tools.ietf.org/html/rfc4122)"));
            (VStr (u "type"), VStr (u "string"));
            (VStr (u "format"), VStr (u "uuid"));
            (VStr (u "example"), VStr (u "00000000-0000-0000-0000-000000000000"))])]])]);
    (VStr (u "/hello/world/{paramTest}"), VMap [(VStr (u "summary"), VStr (u "Some test group of requests"));
      (VStr (u "description"), VStr (u "Another test description"));
      (VStr (u "get"), VMap [(VStr (u "tags"), VSeq [VStr (u "internal")]);
        (VStr (u "summary"), VStr (u "Small summary"));
        (VStr (u "operationId"), VStr (u "testGet"));
        (VStr (u "description"), VStr (u "Small description"));
        (VStr (u "responses"), VMap [(VNum 200, VMap [(VStr (u "description"), VStr (u "Custom response desc"));
            (VStr (u "content"), VMap [(VStr (u "application/json"), VMap [(VStr (u "schema"), VMap [(VStr (u "type"), VStr (u "string"))])])])])]);
        (VStr (u "parameters"), VSeq [VMap [(VStr (u "name"), VStr (u "someParam"));
            (VStr (u "description"), VStr (u "Test"));
            (VStr (u "in"), VStr (u "query"));
            (VStr (u "deprecated"), VBool true);
            (VStr (u "schema"), VMap [(VStr (u "type"), VStr (u "integer"));
              (VStr (u "format"), VStr (u "uint32"))])]])]);
      (VStr (u "post"), VMap [(VStr (u "tags"), VSeq [VStr (u "admin")]);
        (VStr (u "operationId"), VStr (u "testPost"));
        (VStr (u "requestBody"), VMap [(VStr (u "required"), VBool true);
          (VStr (u "description"), VStr (u "Some interesting description"));
          (VStr (u "content"), VMap [(VStr (u "application/json"), VMap [(VStr (u "schema"), VMap [(VStr (u "type"), VStr (u "string"))])])])]);
        (VStr (u "responses"), VMap [(VNum 200, VMap [(VStr (u "description"), VStr (u "OK"));
            (VStr (u "content"), VMap [(VStr (u "application/json"), VMap [(VStr (u "schema"), VMap [(VStr (u "$ref"), VStr (u "#/components/schemas/SimpleEnum"))])])])])])]);
      (VStr (u "delete"), VMap [(VStr (u "responses"), VMap [(VNum 200, VMap [(VStr (u "description"), VStr (u "OK"))])])]);
      (VStr (u "options"), VMap [(VStr (u "responses"), VMap [(VNum 200, VMap [(VStr (u "description"), VStr (u "OK"));
            (VStr (u "content"), VMap [(VStr (u "application/json"), VMap [(VStr (u "schema"), VMap [(VStr (u "description"), VStr (u "Always `null`"));
                  (VStr (u "nullable"), VBool true);
                  (VStr (u "type"), VStr (u "string"));
                  (VStr (u "format"), VStr (u "null"))])])])])])]);
      (VStr (u "parameters"), VSeq [VMap [(VStr (u "name"), VStr (u "asd"));
          (VStr (u "in"), VStr (u "header"));
          (VStr (u "required"), VBool true);
          (VStr (u "schema"), VMap [(VStr (u "type"), VStr (u "string"))])]; VMap [(VStr (u "name"), VStr (u "paramTest"));
          (VStr (u "in"), VStr (u "path"));
          (VStr (u "required"), VBool true);
          (VStr (u "schema"), VMap [(VStr (u "type"), VStr (u "string"))])]; VMap [(VStr (u "name"), VStr (u "test"));
          (VStr (u "in"), VStr (u "query"));
          (VStr (u "schema"), VMap [(VStr (u "type"), VStr (u "integer"));
            (VStr (u "format"), VStr (u "int32"))])]; VMap [(VStr (u "name"), VStr (u "x-request-id"));
          (VStr (u "description"), VStr (u "Test"));
          (VStr (u "in"), VStr (u "header"));
          (VStr (u "required"), VBool true);
          (VStr (u "schema"), VMap [(VStr (u "type"), VStr (u "string"))])]])])]);
  (VStr (u "components"), VMap [(VStr (u "schemas"), VMap [(VStr (u "InModule"), VMap [(VStr (u "type"), VStr (u "object"));
        (VStr (u "properties"), VMap [(VStr (u "field"), VMap [(VStr (u "type"), VStr (u "string"))]);
          (VStr (u "second"), VMap [(VStr (u "$ref"), VStr (u "#/components/schemas/Test"))])]);
        (VStr (u "required"), VSeq [VStr (u "field"); VStr (u "second")])]);
      (VStr (u "SimpleEnum"), VMap [(VStr (u "description"), VStr (u "Simple enum"));
        (VStr (u "type"), VStr (u "string"));
        (VStr (u "enum"), VSeq [VStr (u "test"); VStr (u "another"); VStr (u "yay")]);
        (VStr (u "example"), VStr (u "test"))]);
      (VStr (u "Test"), VMap [(VStr (u "type"), VStr (u "object"));
        (VStr (u "properties"), VMap [(VStr (u "another_field"), VMap [(VStr (u "nullable"), VBool true);
            (VStr (u "type"), VStr (u "string"))])]);
        (VStr (u "required"), VSeq [VStr (u "another_field")])])]);
    (VStr (u "securitySchemes"), VMap [(VStr (u "ApiKeyAuth"), VMap [(VStr (u "type"), VStr (u "apiKey"));
        (VStr (u "in"), VStr (u "query"));
        (VStr (u "name"), VStr (u "X-API-KEY"));
        (VStr (u "description"), VStr (u "And another test description"))]);
      (VStr (u "basicAuth"), VMap [(VStr (u "type"), VStr (u "http"));
        (VStr (u "scheme"), VStr (u "basic"));
        (VStr (u "description"), VStr (u "Another test description"))]);
      (VStr (u "bearerAuth"), VMap [(VStr (u "type"), VStr (u "http"));
        (VStr (u "scheme"), VStr (u "bearer"));
        (VStr (u "bearerFormat"), VStr (u "JWT"));
        (VStr (u "description"), VStr (u "Test description"))]);
      (VStr (u "test_auth"), VMap [(VStr (u "type"), VStr (u "apiKey"));
        (VStr (u "in"), VStr (u "query"));
        (VStr (u "name"), VStr (u "X-MY-SUPER-API"))])])])].
