(** The macro invocations of opg's own tests, as token trees: they are read as transcribed in Conformance.v, and the
    macros expand to the documents the tests expect. *)
From Verif Require Import Schema Doc Ser SerSpec Match Syntax SyntaxSpec DeriveExamples Expected Conformance.
Local Open Scope string_scope. Local Open Scope list_scope.

(** ** A caller *)
(** an expression goes on up to a comma *)
Fixpoint to_comma (ts : list tree) : nat :=
  match ts with [] => 0 | t :: ts' => if token_eqb COMMA t then 0 else S (to_comma ts') end.
(** a path: names with [::] in between, the last of them with arguments in [<>] that are not looked at *)
Fixpoint path_from (depth : nat) (name : bool) (ts : list tree) : option nat :=
  match depth with
  | S d =>
      match ts with
      | [] => None
      | t :: ts' => option_map S (path_from (if token_eqb (tk_pu "<") t then S depth else if token_eqb (tk_pu ">") t then d else depth) name ts')
      end
  | O =>
      if name then match ts with TkId _ :: ts' => option_map S (path_from 0 false ts') | _ => None end
      else
        match ts with
        | TkPu p :: ts' =>
            if str_eqb p (u "::") then option_map S (path_from 0 true ts')
            else if str_eqb p (u "<") then option_map S (path_from 1 false ts') else Some 0
        | _ => Some 0
        end
  end.
Definition plain_text (ts : list tree) : str := flat_map (fun t => match t with TkId s | TkPu s => s | _ => [] end) ts.
Definition test_type (ts : list tree) : option ty :=
  let s := plain_text ts in
  if str_eqb s (u "uuid::Uuid") then Some (TPrim PUuid)
  else if str_eqb s (u "String") then Some string
  else if str_eqb s (u "i32") then Some i32
  else if str_eqb s (u "u32") then Some (TPrim PU32)
  else if str_eqb s (u "SimpleEnum") then Some (TNamed 19)
  else if str_eqb s (u "request::InModule") then Some (TNamed 20)
  else if str_eqb s (u "std::vec::Vec<String>") then Some (TSeq KVec string) else None.
Definition test_caller : caller := {|
  begins := fun t => negb (token_eqb COMMA t);
  expr_at := fun ts => match to_comma ts with O => None | n => Some n end;
  path_at := path_from 0 true;
  text_of := fun e => match e with
    | [TkLit (TlStr s)] => Some s
    | [TkId v] => if str_eqb v (u "title_as_variable") then Some (u "My super API") else None
    | _ => None
    end;
  text_of_ref := fun e => match e with [TkLit (TlStr s)] => Some s | _ => None end;
  bool_of := fun e => match e with
    | [TkId v] => if str_eqb v (u "true") then Some true else if str_eqb v (u "false") then Some false else None
    | _ => None
    end;
  type_of := test_type;
  shown := plain_text;
  schema_of := fun _ => None;
  text_var := fun v =>
    if str_eqb v (u "server_as_variable") then Some (u "http://test/123")
    else if str_eqb v (u "invalid_link") then Some (u "TransactionId") else None;
  scheme_var := fun v => if str_eqb v (u "test_auth") then Some test_auth else None;
  model_var := fun v => if str_eqb v (u "sub") then Some sub else None;
  data_var := fun _ => None;
  other_text := fun _ => None;
  negated := fun _ => None
|}.

(** ** test_suite/tests/api.rs:43-121 *)
Definition test_tokens : list tree :=
  [tk_id "info"; tk_pu ":"; TkGr Brace [tk_id "title"; tk_pu ":"; tk_id "title_as_variable"; tk_pu ","; tk_id "version"; tk_pu
   ":"; tk_str "0.0.0"; tk_pu ","]; tk_pu ","; tk_id "tags"; tk_pu ":"; TkGr Brace [tk_id "internal"; tk_pu ","; tk_id "admin";
   TkGr Paren [tk_str "Super admin methods"]]; tk_pu ","; tk_id "servers"; tk_pu ":"; TkGr Brace [tk_str
   "https://my.super.server.com/v1"; tk_pu ","; tk_id "server_as_variable"]; tk_pu ","; tk_id "security_schemes"; tk_pu ":";
   TkGr Brace [TkGr Paren [tk_id "http"; tk_str "bearerAuth"]; tk_pu ":"; TkGr Brace [tk_id "scheme"; tk_pu ":"; tk_id "Bearer";
   tk_pu ","; tk_id "bearer_format"; tk_pu ":"; tk_str "JWT"; tk_pu ","; tk_id "description"; tk_pu ":"; tk_str
   "Test description"; tk_pu ","]; tk_pu ","; TkGr Paren [tk_id "http"; tk_str "basicAuth"]; tk_pu ":"; TkGr Brace [tk_id
   "scheme"; tk_pu ":"; tk_id "Basic"; tk_pu ","; tk_id "description"; tk_pu ":"; tk_str "Another test description"]; tk_pu ",";
   TkGr Paren [tk_id "apiKey"; tk_str "ApiKeyAuth"]; tk_pu ":"; TkGr Brace [tk_id "parameter_in"; tk_pu ":"; tk_id "Query";
   tk_pu ","; tk_id "name"; tk_pu ":"; tk_str "X-API-KEY"; tk_pu ","; tk_id "description"; tk_pu ":"; tk_str
   "And another test description"]]; tk_pu ","; tk_id "paths"; tk_pu ":"; TkGr Brace [TkGr Paren [tk_str "test"; tk_pu "/";
   tk_id "uuid"; tk_pu "::"; tk_id "Uuid"]; tk_pu ":"; TkGr Brace [tk_id "POST"; tk_pu ":"; TkGr Brace [tk_id "operationId";
   tk_pu ":"; tk_str "test"; tk_pu ","; tk_id "security"; tk_pu ":"; TkGr Brace [tk_id "test_auth"; tk_pu "&&"; tk_str
   "basicAuth"]; tk_pu ","; tk_id "deprecated"; tk_pu ":"; tk_id "true"; tk_pu ","; tk_id "body"; tk_pu ":"; tk_id "request";
   tk_pu "::"; tk_id "InModule"; tk_pu ","; TkLit (TlInt 200); tk_pu ":"; tk_id "std"; tk_pu "::"; tk_id "vec"; tk_pu "::";
   tk_id "Vec"; tk_pu "<"; tk_id "String"; tk_pu ">"; tk_pu ","; tk_id "callbacks"; tk_pu ":"; TkGr Brace [tk_id "myCallback";
   tk_pu ":"; TkGr Brace [TkGr Paren [tk_str "callback_url"]; tk_pu ":"; TkGr Brace [tk_id "POST"; tk_pu ":"; TkGr Brace [tk_id
   "body"; tk_pu ":"; tk_id "request"; tk_pu "::"; tk_id "InModule"; tk_pu ","; TkLit (TlInt 200); tk_pu ":"; tk_id "std"; tk_pu
   "::"; tk_id "vec"; tk_pu "::"; tk_id "Vec"; tk_pu "<"; tk_id "String"; tk_pu ">"; tk_pu ","]]]]]]; tk_pu ","; TkGr Paren
   [tk_str "hello"; tk_pu "/"; tk_str "world"; tk_pu "/"; TkGr Brace [tk_id "paramTest"; tk_pu ":"; tk_id "String"]]; tk_pu ":";
   TkGr Brace [tk_id "summary"; tk_pu ":"; tk_str "Some test group of requests"; tk_pu ","; tk_id "description"; tk_pu ":";
   tk_str "Another test description"; tk_pu ","; tk_id "parameters"; tk_pu ":"; TkGr Brace [TkGr Paren [tk_id "header"; tk_str
   "x-request-id"]; tk_pu ":"; TkGr Brace [tk_id "description"; tk_pu ":"; tk_str "Test"; tk_pu ","]; tk_pu ","; TkGr Paren
   [tk_id "query"; tk_id "test"; tk_pu ":"; tk_id "i32"]; tk_pu ","; TkGr Paren [tk_id "header"; tk_str "asd"]]; tk_pu ",";
   tk_id "GET"; tk_pu ":"; TkGr Brace [tk_id "operationId"; tk_pu ":"; tk_str "testGet"; tk_pu ","; tk_id "tags"; tk_pu ":";
   TkGr Brace [tk_id "internal"]; tk_pu ","; tk_id "summary"; tk_pu ":"; tk_str "Small summary"; tk_pu ","; tk_id "description";
   tk_pu ":"; tk_str "Small description"; tk_pu ","; tk_id "parameters"; tk_pu ":"; TkGr Brace [TkGr Paren [tk_id "query"; tk_id
   "someParam"; tk_pu ":"; tk_id "u32"]; tk_pu ":"; TkGr Brace [tk_id "description"; tk_pu ":"; tk_str "Test"; tk_pu ","; tk_id
   "deprecated"; tk_pu ":"; tk_id "true"]; tk_pu ","]; tk_pu ","; TkLit (TlInt 200); TkGr Paren [tk_str "Custom response desc"];
   tk_pu ":"; tk_id "String"]; tk_pu ","; tk_id "POST"; tk_pu ":"; TkGr Brace [tk_id "operationId"; tk_pu ":"; tk_str
   "testPost"; tk_pu ","; tk_id "tags"; tk_pu ":"; TkGr Brace [tk_id "admin"]; tk_pu ","; tk_id "body"; tk_pu ":"; TkGr Brace
   [tk_id "description"; tk_pu ":"; tk_str "Some interesting description"; tk_pu ","; tk_id "schema"; tk_pu ":"; tk_id "String";
   tk_pu ","; tk_id "required"; tk_pu ":"; tk_id "true"]; tk_pu ","; TkLit (TlInt 200); tk_pu ":"; tk_id "SimpleEnum"; tk_pu
   ","]; tk_pu ","; tk_id "DELETE"; tk_pu ":"; TkGr Brace [TkLit (TlInt 200); tk_pu ":"; tk_id "None"; tk_pu ","]; tk_pu ",";
   tk_id "OPTIONS"; tk_pu ":"; TkGr Brace [TkLit (TlInt 200); tk_pu ":"; TkGr Paren []]]]].
Example test_parses : parse_api test_caller test_tokens = Some test_api.
Proof. vm_compute. reflexivity. Qed.
Example test_expands : match describe_api_macro test_caller test_env 50 test_reason test_tokens with Done d => Some (ser_opg d) | _ => None end
  = Some y_expands_normally.
Proof. vm_compute. reflexivity. Qed.

(** ** test_suite/tests/models.rs:644-749 *)
Definition sub_tokens : list tree :=
  [tk_id "string"; tk_pu "=>"; TkGr Brace [tk_id "description"; tk_pu ":"; tk_str "Test"]].
Definition macro_tokens : list tree :=
  [tk_id "object"; tk_pu "=>"; TkGr Brace [tk_id "description"; tk_pu ":"; tk_str "Hello world"; tk_id "properties"; tk_pu ":";
   TkGr Brace [tk_id "id"; TkGr Bracket [tk_id "required"]; tk_pu ":"; TkGr Paren [tk_id "link"; tk_pu "=>"; tk_str
   "TransactionId"]; tk_id "test"; TkGr Bracket [tk_id "required"]; tk_pu ":"; TkGr Paren [tk_id "object"; tk_pu "=>"; TkGr
   Brace [tk_id "properties"; tk_pu ":"; TkGr Brace [tk_id "sub"; tk_pu ":"; TkGr Paren [tk_id "link"; tk_pu "=>"; tk_str
   "TransactionId"]]]]; tk_id "test_object"; tk_pu ":"; TkGr Paren [tk_id "string"; tk_pu "=>"; TkGr Brace [tk_id "format";
   tk_pu ":"; tk_str "uuid"; tk_id "variants"; tk_pu ":"; TkGr Bracket [tk_str "aaa"; tk_pu ","; tk_str "bbb"]]]; tk_id
   "test_integer"; tk_pu ":"; TkGr Paren [tk_id "integer"; tk_pu "=>"; TkGr Brace [tk_id "format"; tk_pu ":"; tk_str
   "timestamp"; tk_id "example"; tk_pu ":"; tk_str "1591956576404"]]; tk_id "test_boolean"; tk_pu ":"; TkGr Paren [tk_id
   "boolean"; tk_pu "=>"; TkGr Brace []]; tk_id "test_array"; tk_pu ":"; TkGr Paren [tk_id "array"; tk_pu "=>"; TkGr Brace
   [tk_id "items"; tk_pu ":"; TkGr Paren [tk_id "string"; tk_pu "=>"; TkGr Brace []]]]; tk_id "test_raw_model"; tk_pu ":"; TkGr
   Paren [tk_id "raw_model"; tk_pu "=>"; tk_id "sub"]]]].
Definition transaction_tokens : list tree :=
  [tk_id "string"; tk_pu "=>"; TkGr Brace [tk_id "description"; tk_pu ":"; tk_str "Transaction UUID"; tk_id "format"; tk_pu ":";
   tk_str "uuid"; tk_id "example"; tk_pu ":"; tk_str "000..000-000..000-00..00"]].
Definition response_tokens : list tree :=
  [tk_id "object"; tk_pu "=>"; TkGr Brace [tk_id "properties"; tk_pu ":"; TkGr Brace [tk_id "id"; tk_pu ":"; TkGr Paren [tk_id
   "link"; tk_pu "=>"; tk_str "TransactionId"]]]].
Definition invalid_tokens : list tree :=
  [tk_id "object"; tk_pu "=>"; TkGr Brace [tk_id "properties"; tk_pu ":"; TkGr Brace [tk_id "id"; tk_pu ":"; TkGr Paren [tk_id
   "link"; tk_pu "=>"; tk_id "invalid_link"]]]].
Example sub_expands : Syntax.describe_type_macro test_caller sub_tokens = Some sub.
Proof. vm_compute. reflexivity. Qed.
Example macro_parses : parse_type test_caller macro_tokens = Some macro_model.
Proof. vm_compute. reflexivity. Qed.
Example macro_expands : option_map ser_model (Syntax.describe_type_macro test_caller macro_tokens) = Some y_describe_type_macro.
Proof. vm_compute. reflexivity. Qed.
Example transaction_expands : Syntax.describe_type_macro test_caller transaction_tokens = Some transaction_id.
Proof. vm_compute. reflexivity. Qed.
Example response_expands : Syntax.describe_type_macro test_caller response_tokens = Some some_response.
Proof. vm_compute. reflexivity. Qed.
Example invalid_expands : Syntax.describe_type_macro test_caller invalid_tokens = Some some_response.
Proof. vm_compute. reflexivity. Qed.
