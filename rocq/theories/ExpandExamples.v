(** Invocations of describe_api! whose expressions mention variables with the names that the macro itself uses. *)
From Coq Require Import List NArith.
From Verif Require Import Str Schema Gen Doc Api Expand ExpandSpec Expected Conformance ApiExamples.
Import ListNotations.
Local Open Scope string_scope. Local Open Scope list_scope.

(** the expressions [n], a variable of the caller, and ["t"] *)
Definition given (n : String.string) : uexpr := fun s => match var s (u n) with Some v => v | None => XMissing end.
Definition quoted (t : String.string) : uexpr := fun _ => XLit (u t).

Definition hy_scope : scope :=
  [(u "result", XLit (u "R")); (u "context", XLit (u "C")); (u "parameter", XText (u "P")); (u "name", XText (u "N"));
   (u "description", XLit (u "D")); (u "operation", XLit (u "O")); (u "security", XHttp (Basic None)); (u "schema", XBool false)].
Definition hy_url : list utok := [UTok (TkGr Brace [tk_id "id"; tk_pu ":"; tk_id "String"])].
Definition hy_api : xapi :=
  [XcInfo [XnTitle (given "description"); XnVersion (quoted "1")];
   XcTags [(u "t", Some (given "context")); (u "v", None)];
   XcServers [(XtVar (u "result"), Some (XtLit (u "main")))];
   XcSecurity [XsApiKey (given "name") [XkName (given "parameter"); XkDescription (given "name")];
               XsHttp (u "auth") [XhScheme KBearer; XhFormat (given "context"); XhDescription (given "description")]];
   XcPaths
     [XPathDecl hy_url
        [XvParameters [XdHeader (given "parameter") [XpDescription (given "parameter"); XpRequired (given "schema")]];
         XvMethod POST
           [XoSummary (given "operation"); XoBody (BodyProps [BpDescription (u "b"); BpSchema string; BpRequired false]);
            XoDescription (given "description");
            XoSecurity [[XiIdent (u "security") []; XiLit (u "auth") []]];
            XoCallbacks [XcIdent (u "cb") [XPathDecl hy_url [XvMethod GET [XoSummary (given "result")]]]] true;
            XoResponse 200 None (XrType string)]]]].
Definition hy_read : api :=
  [ScInfo [IpTitle (u "D"); IpVersion (u "1")];
   ScTags [(u "t", Some (u "C")); (u "v", None)];
   ScServers [(u "R", Some (u "main"))];
   ScSecurity [SdApiKey (u "N") [KpName (u "P"); KpDescription (u "N")];
               SdHttp (u "auth") [HpScheme KBearer; HpFormat (u "C"); HpDescription (u "D")]];
   ScPaths
     [Build_path_decl_of hy_url
        [PvParameters [PdHeader (u "P") [PpDescription (u "P"); PpRequired false]];
         PvMethod POST
           [OpSummary (u "O"); OpBody (BodyProps [BpDescription (u "b"); BpSchema string; BpRequired false]);
            OpDescription (u "D");
            OpSecurity [[SiIdent (u "security") (Http (Basic None)) []; SiLit (u "auth") []]];
            OpCallbacks [CbIdent (u "cb") [Build_path_decl_of hy_url [PvMethod GET [OpSummary (u "R")]]]] true;
            OpResponse 200 None (RsType string)]]]].
Ltac reading :=
  lazymatch goal with
  | |- shows _ _ _ => first [left; reflexivity | right; reflexivity]
  | |- _ \/ _ => first [left; reflexivity | right; reflexivity]
  | |- holds _ _ _ => reflexivity
  | |- refers _ _ _ => reflexivity
  | |- _ = _ => reflexivity
  | |- _ => econstructor; reading
  end.
Lemma hy_reads : reads_api info_in_turn hy_scope hy_api hy_read.
Proof. unfold reads_api, hy_api, hy_read. reading. Qed.
Lemma hy_meant : reads_api info_meant hy_scope hy_api hy_read.
Proof. unfold reads_api, hy_api, hy_read. reading. Qed.
Lemma hy_apart : forall l, In (XcInfo l) hy_api -> info_apart l.
Proof.
  intros l [[= <-]|H]; [|repeat destruct H as [H|H]; discriminate || contradiction].
  intros l1 p l2 q El Hq. destruct l1 as [|a [|b l1]]; [contradiction| |destruct l1; discriminate].
  injection El as <- <- _. intros v s1 s2. reflexivity.
Qed.
Definition hy_doc : opg :=
  Eval vm_compute in match describe_api test_env 50 test_reason small_seg hy_read with Done d => d | _ => test_doc end.
Lemma hy_describes : describe_api test_env 50 test_reason small_seg hy_read = Done hy_doc.
Proof. vm_compute. reflexivity. Qed.

(** [info: { title: "A", description: title }] where the caller has a variable [title] *)
Definition capture_scope : scope := [(u "title", XText (u "B"))].
Definition capture_api : xapi := [XcInfo [XnTitle (quoted "A"); XnDescription (given "title")]].
Definition capture_meant : api := [ScInfo [IpTitle (u "A"); IpDescription (u "B")]].
Lemma capture_reads : reads_api info_meant capture_scope capture_api capture_meant.
Proof. unfold reads_api, capture_api, capture_meant. reading. Qed.

(** [get: { summary: title, parameters: { (header "H"): { description: title } } }], and without the summary *)
Definition texts_scope : scope := [(u "title", XText (u "T"))].
Definition header_only : xop_prop xcallback_decl := XoParameters [XdHeader (quoted "H") [XpDescription (given "title")]].
Definition texts_api (l : list (xop_prop xcallback_decl)) : xapi := [XcPaths [XPathDecl hy_url [XvMethod GET l]]].
