(** Concrete invocations for the examples beside the theorems about describe_api!. *)
From Verif Require Import GenFacts3 GenFacts4.
From Verif Require Import Attr Ast Derive DeriveSpec Schema Gen GenSpec SerSpec ApiSpec ApiFacts2 ApiFacts4 ApiFacts5 ApiFacts6 ApiFacts8 SerFacts SerFacts2 SerFacts3 SerFacts4 ApiFacts3 Expected Conformance.
Local Open Scope string_scope. Local Open Scope list_scope.

(** the document of test_suite/tests/api.rs *)
Definition test_doc : opg :=
  Eval vm_compute in match describe_api test_env 50 test_reason test_seg test_api with Done d => d | _ => {| og_info := info_default; og_tags := []; og_servers := []; og_paths := []; og_components := cx_new |} end.
Lemma test_describes : describes test_env test_reason test_seg test_api test_doc.
Proof. exists 50. vm_compute. reflexivity. Qed.
Lemma test_written : test_api =
  [ScInfo [IpTitle (u "My super API"); IpVersion (u "0.0.0")];
   ScTags [(u "internal", None); (u "admin", Some (u "Super admin methods"))];
   ScServers [(u "https://my.super.server.com/v1", None); (u "http://test/123", None)];
   nth 3 test_api (ScInfo []); nth 4 test_api (ScInfo [])].
Proof. reflexivity. Qed.
Lemma test_paths : exists p1 p2, api_paths test_api = [p1; p2] /\
  map fst (og_paths test_doc) = [[PePath (u "test"); PeParameter (u "uuid")]; [PePath (u "hello"); PePath (u "world"); PeParameter (u "paramTest")]].
Proof. eexists _, _. split; vm_compute; reflexivity. Qed.

(** small invocations: one path [/id] with the parameter [id : String], and the given properties *)
Definition small_seg (l : list tree) : option segment :=
  match l with
  | [TkGr Brace [TkId name; _; TkId _]] => Some (SegNamed name string)
  | [TkLit (TlStr s)] => Some (SegLit s)
  | [TkId s] => if str_eqb s (u "Wide") then Some (SegType [8364%N; 65%N] string)
                else if str_eqb s (u "Rec") then Some (SegType (u "Rec") (TNamed 12))
                else None
  | _ => None
  end.
Definition small_path (l : list (path_prop callback_decl)) : path_decl := Build_path_decl_of [UTok (TkGr Brace [tk_id "id"; tk_pu ":"; tk_id "String"])] l.
Definition small (l : list (path_prop callback_decl)) : api := [ScPaths [small_path l]].
Definition run (a : api) : outcome opg := describe_api test_env 50 test_reason small_seg a.
Definition doc_of (a : api) : opg := match run a with Done d => d | _ => test_doc end.
Lemma run_describes a d : run a = Done d -> describes test_env test_reason small_seg a d.
Proof. now exists 50. Qed.
Definition link (n : str) : model_ref := Link n.

(** a header parameter of the path takes the name of the path parameter *)
Definition reused : api := small [PvParameters [PdHeader (u "id") []]].
Definition reused_doc : opg := Eval vm_compute in doc_of reused.
Lemma reused_describes : describes test_env test_reason small_seg reused reused_doc.
Proof. apply run_describes. vm_compute. reflexivity. Qed.

(** a response schema written by hand *)
Definition raw : api := small [PvMethod GET [OpResponse 200 None (RsRaw (Some (Link (u "Nowhere"))))]].
Definition raw_doc : opg := Eval vm_compute in doc_of raw.
Lemma raw_describes : describes test_env test_reason small_seg raw raw_doc.
Proof. apply run_describes. vm_compute. reflexivity. Qed.

(** the same path twice *)
Definition twice_api : api := [ScPaths [small_path []; small_path []]].
Definition twice_doc : opg := Eval vm_compute in doc_of twice_api.
Lemma twice_describes : describes test_env test_reason small_seg twice_api twice_doc.
Proof. apply run_describes. vm_compute. reflexivity. Qed.

(** everything several times *)
Definition again : api :=
  [ScTags [(u "a", Some (u "one")); (u "b", None)]; ScTags [(u "a", Some (u "two"))];
   ScSecurity [SdHttp (u "auth") [HpScheme KBasic]; SdHttp (u "auth") [HpScheme KBearer]];
   ScPaths [small_path
     [PvMethod GET [OpSummary (u "first")];
      PvMethod GET
        [OpSummary (u "second"); OpResponse 200 (Some (u "one")) RsNone; OpResponse 404 None RsNone; OpResponse 200 None (RsType string);
         OpParameters [PdQuery (u "q") string [PpRequired true]; PdHeader (u "q") [PpDescription (u "x"); PpDescription (u "y")]];
         OpCallbacks [CbIdent (u "cb") [small_path []]; CbIdent (u "cb") [small_path [PvSummary (u "s")]; small_path []]] true]]]].
Definition again_doc : opg := Eval vm_compute in doc_of again.
Lemma again_describes : describes test_env test_reason small_seg again again_doc.
Proof. apply run_describes. vm_compute. reflexivity. Qed.

(** a security scheme named by a literal; one named by an identifier *)
Definition literal_security : api := small [PvMethod GET [OpSecurity [[SiLit (u "nowhere") []]]]].
Definition literal_security_doc : opg := Eval vm_compute in doc_of literal_security.
Lemma literal_security_describes : describes test_env test_reason small_seg literal_security literal_security_doc.
Proof. apply run_describes. vm_compute. reflexivity. Qed.

(** a callback named by a literal *)
Definition literal_callback : api := small [PvMethod GET [OpCallbacks [CbLit (u "cb") [small_path [PvSummary (u "s")]]] false]].
Definition literal_callback_doc : opg := Eval vm_compute in doc_of literal_callback.
Lemma literal_callback_describes : describes test_env test_reason small_seg literal_callback literal_callback_doc.
Proof. apply run_describes. vm_compute. reflexivity. Qed.

(** a description with nested objects *)
Definition described_object : describe :=
  DtObject (Some (u "Hello"))
    [(u "id", true, DvLink (u "TransactionId")); (u "b", false, DvInline (DtString None None None None));
     (u "a", true, DvInline (DtObject None [(u "sub", false, DvInline (DtArray None (DvLink (u "Sub"))))]))].

(** ** Facts about these invocations *)
Definition test_path_1 : path_decl := nth 0 (api_paths test_api) (small_path []).
Definition test_path_2 : path_decl := nth 1 (api_paths test_api) (small_path []).
Definition test_callback_path : path_decl :=
  Build_path_decl_of [UTok (tk_str "callback_url")] [PvMethod POST [OpBody (BodyType (TNamed 20)); OpResponse 200 None (RsType (TSeq KVec string))]].
Ltac cases H := match type of H with _ \/ _ => destruct H as [H|H]; cases H | False => destruct H | _ => idtac end.
Ltac inside H := cbn in H; cases H; try discriminate H; try (injection H; clear H; intros; subst).
Lemma test_within ds : declared_within (api_paths test_api) ds -> ds = [test_path_1; test_path_2] \/ ds = [test_callback_path].
Proof.
  induction 1 as [|ds d m l cs t n ds' Hd IH H1 H2 H3 H4]; [now left|]. right. destruct IH as [->| ->].
  - destruct H1 as [<-|[<-|[]]]; inside H2; inside H3. inside H4. reflexivity.
  - destruct H1 as [<-|[]]. inside H2; inside H3.
Qed.
Lemma test_declares pd : declares_path test_api pd -> pd = test_path_1 \/ pd = test_path_2 \/ pd = test_callback_path.
Proof.
  intros (ds & Hd & Hi). apply test_within in Hd. destruct Hd as [->| ->]; cbn in Hi.
  - destruct Hi as [<-|[<-|[]]]; auto.
  - destruct Hi as [<-|[]]; auto.
Qed.
Lemma test_path_parameter : exists v, In ([PePath (u "hello"); PePath (u "world"); PeParameter (u "paramTest")], v) (og_paths test_doc) /\
  (forall pd q, declares_path test_api pd -> In q (path_params_of pd) -> pd_name q <> u "paramTest") /\ List.length (pv_parameters v) = 4.
Proof.
  eexists. split; [right; left; reflexivity|]. split; [|reflexivity]. intros pd q Hp Hq. apply test_declares in Hp.
  destruct Hp as [->|[->| ->]]; cbn in Hq; [destruct Hq| |destruct Hq].
  destruct Hq as [<-|[<-|[<-|[]]]]; discriminate.
Qed.
Lemma test_no_raw r : ~ raw_response test_api r.
Proof.
  intros (l & c & d & (pd & m & Hp & Hm) & Hr). apply test_declares in Hp. destruct Hp as [->|[->| ->]]; inside Hm; inside Hr.
Qed.
(** finding a mapping with an entry in a value *)
Fixpoint partb (fuel : nat) (p : value -> bool) (v : value) : bool :=
  match fuel with
  | 0 => false
  | S f => p v || match v with VSeq l => existsb (partb f p) l | VMap l => existsb (fun e => partb f p (snd e)) l | _ => false end
  end.
Lemma partb_part f p : forall v, partb f p v = true -> exists w, part w v /\ p w = true.
Proof.
  induction f as [|f IH]; intros v H; [discriminate|]. cbn in H. apply Bool.orb_true_iff in H. destruct H as [H|H]; [exists v; split; [constructor|exact H]|].
  destruct v as [|b|n|s|l|l]; try discriminate; apply existsb_exists in H; destruct H as (x & Hx & Hp).
  - apply IH in Hp. destruct Hp as (w & Hw & Hpw). exists w. split; [eapply part_element; eassumption|exact Hpw].
  - destruct x as [k x]. apply IH in Hp. destruct Hp as (w & Hw & Hpw). exists w. split; [eapply part_entry; eassumption|exact Hpw].
Qed.
Definition is_ref (s : str) (v : value) : bool :=
  match v with VMap [(VStr k, VStr t)] => str_eqb k (u "$ref") && str_eqb t s | _ => false end.
Lemma find_ref f s v : partb f (is_ref s) v = true -> has_ref s v.
Proof.
  intros H. apply partb_part in H. destruct H as (w & Hw & Hp). destruct w as [|b|n|x|l|l]; try discriminate. destruct l as [|[[|b|n|k|l|l] [|b'|n'|t|l'|l']] [|e l2]]; try discriminate.
  cbn in Hp. apply Bool.andb_true_iff in Hp. destruct Hp as [H1 H2]. apply str_eqb_eq in H1, H2. subst. eexists. split; [exact Hw|now left].
Qed.
Lemma test_has_ref : has_ref (u "#/components/schemas/SimpleEnum") (ser_opg test_doc).
Proof. apply (find_ref 20). vm_compute. reflexivity. Qed.
Lemma raw_has_ref : has_ref (u "#/components/schemas/Nowhere") (ser_opg raw_doc).
Proof. apply (find_ref 20). vm_compute. reflexivity. Qed.
Lemma twice_part : part (VMap [(VStr (u "/{id}"), ser_path_value (snd (nth 0 (og_paths twice_doc) ([], path_value_default))));
  (VStr (u "/{id}"), ser_path_value (snd (nth 0 (og_paths twice_doc) ([], path_value_default))))]) (ser_opg twice_doc).
Proof. eapply part_entry; [right; right; left; reflexivity|]. constructor. Qed.
Lemma test_keys_distinct : keys_distinct (ser_opg test_doc).
Proof.
  apply keys_distinct_iff.
  - eapply described_wf; [exact test_describes|]. intros r Hr. now apply test_no_raw in Hr.
  - intros l Hl. assert (H : l = og_paths test_doc \/ map fst l = [[PePath (u "callback_url")]] \/ l = []).
    { assert (Hx : l = og_paths test_doc \/ (map fst l = [[PePath (u "callback_url")]] /\ forall p v m o k c, In (p, v) l -> In (m, o) (pv_operations v) -> ~ In (k, c) (op_callbacks o))).
      { induction Hl as [|l p v m o k c Hl IH H1 H2 H3]; [now left|]. right. destruct IH as [->|[_ IH]]; [|now apply (IH _ _ _ _ _ _ H1 H2) in H3].
        destruct H1 as [[= <- <-]|[[= <- <-]|[]]].
        - destruct H2 as [[= <- <-]|[]]. destruct H3 as [[= <- <-]|[]]. split; [reflexivity|].
          intros p v m o k c [[= <- <-]|[]] [[= <- <-]|[]] [].
        - exfalso. cbn in H2. repeat (destruct H2 as [[= <- <-]|H2]; [destruct H3|]). destruct H2. }
      tauto. }
    assert (Hr : map (fun e : path * path_value => render_path (fst e)) l = map render_path (map fst l)) by now rewrite map_map.
    rewrite Hr. destruct H as [->|[-> | ->]]; apply nodupb_NoDup; reflexivity.
Qed.
Lemma test_uses : uses_scheme test_api (u "test_auth") test_auth.
Proof.
  eexists _, _, _, _. split; [eexists test_path_1, POST; split; [eexists; split; [constructor|left; reflexivity]|left; reflexivity]|].
  split; [right; left; reflexivity|]. split; [left; reflexivity|]. left. reflexivity.
Qed.

Definition test_types : list ty := Eval vm_compute in types_of (ev_api test_seg test_api).
Definition test_sites : list site := Eval vm_compute in
  nodup site_eq_dec (map (fun t => SMention t false) test_types ++
    flat_map (fun t => sites_of test_env t) (test_types ++ [TNamed 21; TSeq KVec string; TOption string])).
Lemma test_visited s : visited test_env (map (fun t => SMention t false) test_types) s -> In s test_sites.
Proof. apply visited_in_list; vm_compute; reflexivity. Qed.
Lemma test_unambiguous : names_unambiguous test_env (map (fun t => SMention t false) test_types).
Proof.
  intros t1 t2 [H1 N1] [H2 N2] Heq. apply test_visited in H1, H2. unfold test_sites in H1, H2. cbn in H1, H2.
  repeat (destruct H1 as [[= <-]|H1] || destruct H1 as [[=]|H1]); try destruct H1; try (now elim N1);
  repeat (destruct H2 as [[= <-]|H2] || destruct H2 as [[=]|H2]); try destruct H2; try (now elim N2); try reflexivity; discriminate Heq.
Qed.
Lemma test_names : describes test_env test_reason test_seg test_api test_doc /\ names_type test_seg test_api (TNamed 19) /\
  names_unambiguous test_env (map (fun t => SMention t false) (types_of (ev_api test_seg test_api))) /\
  (forall t, In t (types_of (ev_api test_seg test_api)) <-> names_type test_seg test_api t) /\
  bm_keys (cx_schemas (og_components test_doc)) = [u "InModule"; u "SimpleEnum"; u "Test"].
Proof.
  split; [exact test_describes|]. split; [|split; [exact test_unambiguous|split; [apply types_written|reflexivity]]].
  apply types_written. change (In (TNamed 19) test_types). unfold test_types. cbn. tauto.
Qed.
Lemma test_fine t : In t (types_of (ev_api test_seg test_api)) -> ~ recursive test_env t /\ exists l, forall t', contains test_env t t' -> In t' l.
Proof.
  intros Ht. split.
  - destruct (components_of_types _ _ _ _ _ test_describes) as (ts & cx & H1 & H2 & _).
    apply (returned_not_recursive test_env (map default_call ts) cx (default_call t)); [|exact H2|].
    + rewrite call_sites_default. apply unambiguous_unique. eapply unambiguous_same; [|exact test_unambiguous].
      apply same_sites. intros t0. rewrite H1, <- types_written. reflexivity.
    + apply in_map, H1, types_written, Ht.
  - exists (map site_ty test_sites). intros t' Hc. apply contains_visited in Hc. destruct Hc as (s & Hs & <-).
    assert (Hm : visited test_env (map (fun t => SMention t false) test_types) (SMention t false)).
    { constructor. apply (in_map (fun t => SMention t false)), Ht. }
    destruct (visited_split test_env _ _ Hs) as (s0 & [<-|[]] & [->|Hv]).
    + apply (in_map site_ty _ (SMention t false)), test_visited, Hm.
    + apply in_map, test_visited. eapply visited_incl; [|exact Hv]. intros s1 H1. eapply vis_step; [exact Hm|exact H1].
Qed.

Definition rec_api : api := [ScPaths [Build_path_decl_of [UTok (tk_id "Rec")] []]].
Definition rec_sites : list site := Eval vm_compute in
  let l := sites_of test_env (TNamed 12) in
  let next l := nodup site_eq_dec (l ++ flat_map (fun s => sites_of test_env (site_ty s)) l) in
  next (next (next (SMention (TNamed 12) false :: l))).
Lemma rec_never : never_returns test_env test_reason small_seg rec_api.
Proof.
  apply (recursive_never test_env test_reason small_seg rec_api [TNamed 12] (TNamed 12)).
  - intros t. rewrite <- types_written. reflexivity.
  - intros t1 t2 [H1 N1] [H2 N2] Heq.
    assert (Hv : forall s, visited test_env [SMention (TNamed 12) false] s -> In s rec_sites) by (apply visited_in_list; vm_compute; reflexivity).
    apply Hv in H1, H2. unfold rec_sites in H1, H2. clear Hv. inside H1; inside H2; try reflexivity; try (now elim N1); try (now elim N2); discriminate Heq.
  - rewrite does_not_compile_iff. vm_compute. discriminate.
  - intros H. apply panic_events in H. cbn in H. inside H.
  - now left.
  - left. eapply cont_more; [eexists; split; [vm_compute; left; reflexivity|reflexivity]|].
    eapply cont_more; [eexists; split; [vm_compute; left; reflexivity|reflexivity]|].
    constructor. eexists; split; [vm_compute; left; reflexivity|reflexivity].
Qed.
Lemma outcome_cases :
  describes test_env test_reason test_seg test_api test_doc /\
  (forall t, In t (types_of (ev_api test_seg test_api)) -> ~ recursive test_env t /\ exists l, forall t', contains test_env t t' -> In t' l) /\
  never_returns test_env test_reason small_seg [ScPaths [Build_path_decl_of [UTok (tk_id "Rec")] []]] /\
  panics test_env test_reason small_seg [ScPaths [Build_path_decl_of [UTok (tk_id "Wide")] []]] /\
  does_not_compile test_env test_reason small_seg [ScPaths [Build_path_decl_of [UTok (tk_id "Nope")] []]].
Proof.
  split; [exact test_describes|]. split; [exact test_fine|]. split; [exact rec_never|]. split; [exists 50; vm_compute; reflexivity|].
  apply does_not_compile_iff. vm_compute. reflexivity.
Qed.
Lemma compiles_cases : ~ breaks_rule test_seg test_api /\
  breaks_rule small_seg (small [PvMethod POST [OpBody (BodyProps [BpDescription (u "x")])]]).
Proof.
  split.
  - intros H. apply compiles_false in H. vm_compute in H. discriminate H.
  - apply compiles_false. vm_compute. reflexivity.
Qed.
Lemma described_object_case : all_described described_object /\ names_distinct described_object /\ written (u "Sub") described_object /\
  exists o, object_of (describe_type described_object) = Some o /\ mo_required o = [u "id"; u "a"] /\ bm_keys (mo_properties o) = [u "a"; u "b"; u "id"].
Proof.
  split; [|split; [|split]].
  - constructor. intros k b v H. inside H; repeat constructor. intros k b v H. inside H; repeat constructor.
  - constructor; [apply nodupb_NoDup; reflexivity|]. intros k b x H. inside H; constructor.
    + apply nodupb_NoDup; reflexivity.
    + intros k b x H. inside H. constructor. discriminate.
  - eapply wr_property; [right; right; left; reflexivity|]. constructor. eapply wr_property; [left; reflexivity|]. repeat constructor.
  - eexists. split; [reflexivity|]. split; reflexivity.
Qed.
