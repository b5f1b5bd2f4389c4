(** The macros as a whole, and examples. *)
From Verif Require Import Api ApiSpec Match MatchFacts MatchFacts2 MatchFacts3 Syntax SyntaxSpec SyntaxFacts SyntaxFacts5 SyntaxFacts7 SyntaxFacts8 Conformance ConformanceSyntax.
Local Open Scope string_scope. Local Open Scope list_scope.

(** ** [describe_api!] *)
Lemma api_document C E fuel reason ts d : rust_like C ->
  (describe_api_macro C E fuel reason ts = Done d <-> exists a, invocation C ts a /\ describe_api E fuel reason (url_segment C) a = Done d).
Proof.
  intros HC. unfold describe_api_macro. split.
  - intros H. destruct (parse_api C ts) as [a|] eqn:E0; [|discriminate]. exists a. split; [now apply parse_api_spec|exact H].
  - intros (a & Ha & H). now rewrite (proj2 (parse_api_spec C HC ts a) Ha).
Qed.
Lemma api_rejects C E fuel reason ts : rust_like C -> (forall a, ~ invocation C ts a) -> describe_api_macro C E fuel reason ts = Rejected.
Proof.
  intros HC H. unfold describe_api_macro. destruct (parse_api C ts) as [a|] eqn:E0; [|reflexivity]. apply parse_api_spec in E0; [|exact HC]. now destruct (H a).
Qed.
Lemma api_reads C E fuel reason ts a : rust_like C -> invocation C ts a -> describe_api_macro C E fuel reason ts = describe_api E fuel reason (url_segment C) a.
Proof. intros HC H. unfold describe_api_macro. now rewrite (proj2 (parse_api_spec C HC ts a) H). Qed.
Lemma api_one_meaning C ts a a' : rust_like C -> invocation C ts a -> invocation C ts a' -> a = a'.
Proof. intros HC H H'. apply (parse_api_spec C HC) in H, H'. congruence. Qed.
Lemma segment_one_meaning C ts s s' : rust_like C -> segment_form C ts s -> segment_form C ts s' -> s = s'.
Proof. intros HC H H'. apply (url_segment_spec C HC) in H, H'. congruence. Qed.
Lemma sep_comma_list {X} (item : list tree -> X -> Prop) ts xs : sep_list COMMA item ts xs -> comma_list item ts xs /\ comma_list item (ts ++ [COMMA]) xs /\ xs <> [].
Proof.
  induction 1 as [ts x Hx|ts x rest xs Hx Hl (IH1 & IH2 & _)].
  - split; [now apply cl_last|]. split; [|discriminate]. apply (cl_more item ts x [] []); [assumption|constructor].
  - split; [now apply cl_more|]. split; [|discriminate]. rewrite <- app_assoc. now apply cl_more.
Qed.
Lemma api_trailing_comma C E fuel reason ts a : rust_like C -> sep_list COMMA (section_entry C) ts a ->
  describe_api_macro C E fuel reason (ts ++ [COMMA]) = describe_api_macro C E fuel reason ts.
Proof.
  intros HC H. apply sep_comma_list in H. destruct H as (H1 & H2 & Hn).
  rewrite (api_reads C E fuel reason ts a HC), (api_reads C E fuel reason (ts ++ [COMMA]) a HC); [reflexivity|split; assumption|split; assumption].
Qed.

Section Lists.
  Context {X : Type}.
  Variable item : list tree -> X -> Prop.
  Lemma comma_list_one t xs : comma_list item t xs -> xs = [] /\ t = [] \/ (exists x, xs = [x] /\ item t x) \/
    exists ts x rest ys, t = ts ++ COMMA :: rest /\ item ts x /\ xs = x :: ys /\ comma_list item rest ys.
  Proof. intros []; [now left|right; left; eauto|right; right; eauto 9]. Qed.
End Lists.

Lemma one_section C ts a : ~ In COMMA ts -> invocation C ts a -> exists s, a = [s] /\ section_entry C ts s.
Proof.
  intros Hn [H Ha]. apply comma_list_one in H. destruct H as [[-> _]|[(s & -> & Hs)|(t & x & rest & ys & -> & _)]].
  - now destruct Ha.
  - eauto.
  - exfalso. apply Hn, in_or_app. right. now left.
Qed.
Lemma scheme_head C ts d : scheme_entry C ts d -> exists g r, ts = TkGr Paren g :: r.
Proof. intros []; eauto. Qed.
Lemma scheme_variable C E fuel reason n rest : rust_like C ->
  describe_api_macro C E fuel reason [tk_id "security_schemes"; COLON_TK; TkGr Brace (TkId n :: rest)] = Rejected.
Proof.
  intros HC. apply api_rejects; [exact HC|]. intros a H. apply one_section in H.
  - destruct H as (s & -> & H). destruct s as [l|l|l|l|l]; destruct H as (v & E0 & p & -> & Hp); try discriminate E0. injection E0 as <-.
    apply comma_list_one in Hp. destruct Hp as [[_ Hp]|[(x & _ & Hp)|(t & x & r & ys & Ep & Hp & _)]]; [discriminate| |].
    + apply scheme_head in Hp. destruct Hp as (g & r & Hp). discriminate.
    + apply scheme_head in Hp. destruct Hp as (g & r' & ->). discriminate.
  - intros [Hx|[Hx|[Hx|[]]]]; discriminate.
Qed.
(** an operation with one callback *)
Definition with_callback (callback : list tree) : list tree :=
  [tk_id "paths"; COLON_TK; TkGr Brace [TkGr Paren [tk_str "jobs"]; COLON_TK; TkGr Brace
     [tk_id "POST"; COLON_TK; TkGr Brace [tk_id "callbacks"; COLON_TK; TkGr Brace callback]]]].
Definition literal_callback (n : str) (body : list tree) : list tree := [TkLit (TlStr n); COLON_TK; TkGr Brace body].
Lemma literal_callback_reads C n body : invocation C (with_callback (literal_callback n body))
  [ScPaths [Build_path_decl_of [UTok (tk_str "jobs")] [PvMethod POST [OpCallbacks [CbLit n []] false]]]].
Proof.
  split; [|discriminate]. apply cl_last. eexists. split; [reflexivity|]. eexists. split; [reflexivity|]. left. apply cl_last.
  apply pa; [discriminate| |].
  - constructor; [|constructor]. right. split; [discriminate|reflexivity].
  - apply cl_last. apply (pp_method C POST). apply cl_last. apply (oe_literal_callback C [] []). now left.
Qed.
Lemma literal_callback_same C E fuel reason n body body' : rust_like C ->
  describe_api_macro C E fuel reason (with_callback (literal_callback n body)) = describe_api_macro C E fuel reason (with_callback (literal_callback n body')).
Proof. intros HC. now rewrite !(api_reads C E fuel reason _ _ HC (literal_callback_reads C n _)). Qed.

(** ** [describe_type!] *)
Lemma type_model C ts m : Syntax.describe_type_macro C ts = Some m <-> exists d, type_form C ts d /\ m = describe_type d.
Proof.
  unfold Syntax.describe_type_macro. split.
  - intros H. destruct (parse_type C ts) as [d|] eqn:E; [|discriminate]. injection H as <-. exists d. split; [now apply parse_type_spec|reflexivity].
  - intros (d & Hd & ->). now rewrite (proj2 (parse_type_spec C ts d) Hd).
Qed.
Lemma type_one_meaning C ts d d' : type_form C ts d -> type_form C ts d' -> d = d'.
Proof. intros H H'. apply parse_type_spec in H, H'. congruence. Qed.

(** ** the caller of the tests *)
Lemma to_comma_le ts : to_comma ts <= length ts.
Proof. induction ts as [|t ts IH]; cbn [to_comma length]; [lia|]. destruct (token_eqb COMMA t); lia. Qed.
Lemma to_comma_app ts rest : to_comma (ts ++ COMMA :: rest) = to_comma ts.
Proof. induction ts as [|t ts IH]; [reflexivity|]. cbn [app to_comma]. destruct (token_eqb COMMA t); [reflexivity|now rewrite IH]. Qed.
Lemma path_from_size ts : forall d b n, path_from d b ts = Some n -> n <= length ts /\ (b = true -> d = 0 -> 1 <= n).
Proof.
  assert (M : forall (o : option nat) n, option_map S o = Some n -> exists m, o = Some m /\ n = S m) by (intros [m|] n H; [injection H as <-; eauto|discriminate]).
  induction ts as [|t ts IH]; intros [|d] [|] n H; cbn [path_from length] in *; try discriminate.
  - injection H as <-. split; [lia|discriminate].
  - destruct t; try discriminate. apply M in H. destruct H as (m & H & ->). apply IH in H. split; [lia|lia].
  - split; [|discriminate]. destruct t as [|l|p|]; try (injection H as <-; lia).
    destruct (str_eqb p (u "::")); [apply M in H; destruct H as (m & H & ->); apply IH in H; lia|].
    destruct (str_eqb p (u "<")); [apply M in H; destruct H as (m & H & ->); apply IH in H; lia|injection H as <-; lia].
  - apply M in H. destruct H as (m & H & ->). apply IH in H. split; [lia|discriminate].
  - apply M in H. destruct H as (m & H & ->). apply IH in H. split; [lia|discriminate].
Qed.
Lemma path_from_comma ts rest : forall d b, path_from d b (ts ++ COMMA :: rest) = Some (length ts) <-> path_from d b ts = Some (length ts).
Proof.
  assert (M : forall (o o' : option nat) n, (o = Some n <-> o' = Some n) -> (option_map S o = Some (S n) <-> option_map S o' = Some (S n))).
  { intros [m|] [m'|] n Hn; cbn; split; intros H; try discriminate; injection H as ->; destruct Hn as [H1 H2].
    - now rewrite (f_equal S (f_equal (fun o => match o with Some x => x | None => 0 end) (H1 eq_refl))).
    - now rewrite (f_equal S (f_equal (fun o => match o with Some x => x | None => 0 end) (H2 eq_refl))).
    - now specialize (H1 eq_refl).
    - now specialize (H2 eq_refl). }
  induction ts as [|t ts IH]; intros [|d] [|]; cbn [path_from app length].
  - split; discriminate.
  - split; reflexivity.
  - split; [|discriminate]. intros H. destruct (path_from _ _ rest); discriminate.
  - split; [|discriminate]. intros H. destruct (path_from _ _ rest); discriminate.
  - destruct t; try (split; discriminate). apply M, IH.
  - destruct t as [|l|p|]; try (split; discriminate). destruct (str_eqb p (u "::")); [apply M, IH|]. destruct (str_eqb p (u "<")); [apply M, IH|split; discriminate].
  - apply M, IH.
  - apply M, IH.
Qed.
Lemma test_rust_like : rust_like test_caller.
Proof.
  constructor; cbn [expr_at path_at begins test_caller].
  - intros ts n H. pose proof (to_comma_le ts). destruct (to_comma ts) as [|m]; [discriminate|]. injection H as <-. lia.
  - intros ts n H. apply path_from_size in H. split; [now apply H|apply H].
  - intros t ts n H. cbn [to_comma] in H. destruct (token_eqb COMMA t); [discriminate|reflexivity].
  - intros t ts n H. cbn [path_from] in H. destruct t; try discriminate. left. eauto.
  - intros ts rest. now rewrite to_comma_app.
  - intros ts rest. apply path_from_comma.
  - reflexivity.
Qed.

(** ** examples *)
Definition one_response : list tree := [TkGr Paren [tk_str "done"]; COLON_TK; TkGr Brace [tk_id "POST"; COLON_TK; TkGr Brace [TkLit (TlInt 200); COLON_TK; tk_id "String"]]].
Definition named_callback (body : list tree) : list tree := [tk_id "onDone"; COLON_TK; TkGr Brace body].
Definition compiles (ts : list tree) : bool := match parse_api test_caller ts with Some _ => true | None => false end.
Lemma callback_comma : compiles (with_callback (named_callback one_response)) = true /\ compiles (with_callback (named_callback (one_response ++ [COMMA]))) = false /\
  compiles [tk_id "paths"; COLON_TK; TkGr Brace (one_response ++ [COMMA])] = true.
Proof. now vm_compute. Qed.
Lemma callback_literal_comma : compiles (with_callback (literal_callback (u "onDone") one_response)) = true /\
  compiles (with_callback (literal_callback (u "onDone") one_response ++ [COMMA])) = false.
Proof. now vm_compute. Qed.
Lemma lone_comma : compiles [tk_id "tags"; COLON_TK; TkGr Brace [COMMA]] = true /\ compiles [tk_id "servers"; COLON_TK; TkGr Brace [COMMA]] = false.
Proof. now vm_compute. Qed.
Lemma test_invocation : invocation test_caller test_tokens test_api.
Proof. apply (parse_api_spec _ test_rust_like). exact test_parses. Qed.
Lemma macro_form : type_form test_caller macro_tokens macro_model.
Proof. apply parse_type_spec. exact macro_parses. Qed.
Lemma api_describes C E reason ts d : rust_like C ->
  ((exists fuel, describe_api_macro C E fuel reason ts = Done d) <-> exists a, invocation C ts a /\ describes E reason (url_segment C) a d).
Proof.
  intros HC. split.
  - intros (fuel & H). apply api_document in H; [|exact HC]. destruct H as (a & Ha & H). exists a. split; [exact Ha|]. now exists fuel.
  - intros (a & Ha & fuel & H). exists fuel. apply api_document; [exact HC|]. eauto.
Qed.
Lemma no_sections : comma_list (section_entry test_caller) [] [] /\ forall C E fuel reason, rust_like C -> describe_api_macro C E fuel reason [] = Rejected.
Proof.
  split; [constructor|]. intros C E fuel reason HC. apply api_rejects; [exact HC|]. intros a [H Ha]. inversion H as [E0|ts x Hx E0|ts x rest xs Hx Hl E0]; subst.
  - now destruct Ha.
  - destruct x as [l|l|l|l|l]; destruct Hx as (v & E0 & _); discriminate.
  - destruct ts; discriminate.
Qed.
Lemma unknown_section C E fuel reason n p : rust_like C -> ~ In n (map u ["info"; "tags"; "servers"; "security_schemes"; "paths"]) ->
  describe_api_macro C E fuel reason [TkId n; COLON_TK; TkGr Brace p] = Rejected.
Proof.
  intros HC Hn. apply api_rejects; [exact HC|]. intros a H. apply one_section in H; [|intros [Hx|[Hx|[Hx|[]]]]; discriminate].
  destruct H as (s & -> & H). apply Hn. destruct s as [l|l|l|l|l]; destruct H as (v & E0 & _); injection E0 as E0 _; rewrite E0; cbn; tauto.
Qed.

(** keys out of order, and with commas *)
Definition swapped : list tree := form "string" [tk_id "format"; COLON_TK; tk_str "uuid"; tk_id "description"; COLON_TK; tk_str "An id"].
Definition ordered : list tree := form "string" [tk_id "description"; COLON_TK; tk_str "An id"; tk_id "format"; COLON_TK; tk_str "uuid"].
Definition two_properties (sep : list tree) : list tree :=
  form "object" [tk_id "properties"; COLON_TK; TkGr Brace ([tk_id "a"; COLON_TK; TkGr Paren (form "boolean" [])] ++ sep ++ [tk_id "b"; COLON_TK; TkGr Paren (form "boolean" [])])].
Lemma key_order : Syntax.describe_type_macro test_caller swapped = None /\ exists m, Syntax.describe_type_macro test_caller ordered = Some m.
Proof. split; [reflexivity|]. eexists. reflexivity. Qed.
Lemma no_commas : Syntax.describe_type_macro test_caller (two_properties [COMMA]) = None /\ exists m, Syntax.describe_type_macro test_caller (two_properties []) = Some m.
Proof. split; [reflexivity|]. eexists. reflexivity. Qed.
