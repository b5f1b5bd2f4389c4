(** Facts about conformance: which documents conform to OpenAPI. *)
From Verif Require Import SerSpec OpenApiSpec SchemaFacts SerFacts SerFacts2 SerFacts3 SerFacts4.
From Verif Require ReadFacts.
Local Open Scope string_scope. Local Open Scope list_scope.

(** ** Fields *)
Lemma fields_of ks ks' l : keyed ks' l -> nodupb ks' = true -> forallb (fun k => existsb (fun s => str_eqb k (u s)) ks) ks' = true -> fields ks l.
Proof.
  intros Hk Hn Hs. split.
  - unfold keyed in Hk. eapply subseq_NoDup; [exact Hk|]. apply NoDup_map_inj; [apply VStr_inj|]. now apply nodupb_NoDup.
  - intros k w Hi. apply (in_map fst) in Hi. apply (subseq_In _ _ _ Hk) in Hi. cbn [fst] in Hi. apply in_map_iff in Hi. destruct Hi as (x & <- & Hx).
    rewrite forallb_forall in Hs. apply Hs in Hx. apply existsb_exists in Hx. destruct Hx as (s & Hi & E). exists s. split; [exact Hi|].
    apply str_eqb_eq in E. now subst.
Qed.
Ltac fields := eapply fields_of; [keyed|vm_compute; reflexivity|vm_compute; reflexivity].

Lemma optional_look k P l : optional k P l <-> match lookup (u k) l with Some w => P w | None => True end.
Proof. unfold optional. destruct (lookup (u k) l) as [w|]; split; auto; try discriminate. intros H w' [= <-]. exact H. Qed.
Lemma required_look k P l : required k P l <-> match lookup (u k) l with Some w => P w | None => False end.
Proof.
  unfold required. destruct (lookup (u k) l) as [w|]; split; try tauto.
  - intros (w' & [= <-] & H). exact H.
  - intros H. now exists w.
  - intros (w' & [=] & _).
Qed.
Lemma exists_map (P : entries -> Prop) L : (exists l, VMap L = VMap l /\ P l) <-> P L.
Proof. split; [intros (l & [= <-] & H); exact H|intros H; now exists L]. Qed.
Lemma exists_seq (P : list value -> Prop) L : (exists l, VSeq L = VSeq l /\ P l) <-> P L.
Proof. split; [intros (l & [= <-] & H); exact H|intros H; now exists L]. Qed.
Lemma opt_text o : match option_map VStr o with Some w => is_text w | None => True end.
Proof. destruct o; cbn; auto. now eexists. Qed.
Lemma opt_flag b : match opt_true b with Some w => is_flag w | None => True end.
Proof. destruct b; cbn; auto. now eexists. Qed.
Lemma opt_map {A} (f : A -> value) (P : value -> Prop) o : match option_map f o with Some w => P w | None => True end <-> forall a, o = Some a -> P (f a).
Proof. destruct o; cbn; split; auto; try discriminate. intros H a' [= <-]. exact H. Qed.
Lemma opt_seq {A} (f : list A -> value) (P : value -> Prop) l : match opt_list f l with Some w => P w | None => True end <-> (l <> [] -> P (f l)).
Proof. destruct l; cbn; split; auto; try congruence. intros H. now apply H. Qed.
Lemma VSeq_inj a b : VSeq a = VSeq b -> a = b. Proof. congruence. Qed.
Lemma in_nonempty {A} (x : A) l : In x l -> l <> []. Proof. now intros H ->. Qed.
Lemma text_ok s : is_text (VStr s). Proof. now eexists. Qed.
Lemma texts_ok l : list_of is_text (ser_strs l).
Proof. eexists. split; [reflexivity|]. intros w H. apply in_map_iff in H. destruct H as (s & <- & _). apply text_ok. Qed.
Lemma list_of_map {A} (P : value -> Prop) (f : A -> value) l : list_of P (VSeq (map f l)) <-> forall a, In a l -> P (f a).
Proof.
  unfold list_of. rewrite exists_seq. split.
  - intros H a Ha. apply H. now apply in_map.
  - intros H w Hw. apply in_map_iff in Hw. destruct Hw as (a & <- & Ha). auto.
Qed.
Lemma nonempty_list_of_map {A} (P : value -> Prop) (f : A -> value) l :
  nonempty_list_of P (VSeq (map f l)) <-> l <> [] /\ forall a, In a l -> P (f a).
Proof.
  unfold nonempty_list_of. rewrite exists_seq. split.
  - intros [Hn H]. split; [now destruct l|]. intros a Ha. apply H. now apply in_map.
  - intros [Hn H]. split; [now destruct l|]. intros w Hw. apply in_map_iff in Hw. destruct Hw as (a & <- & Ha). auto.
Qed.
Lemma map_of_map {V} (K : str -> Prop) (P : value -> Prop) (f : V -> value) (m : bmap str V) : bm_sorted m ->
  map_of K P (VMap (map (fun e => (VStr (fst e), f (snd e))) m)) <-> forall k v, In (k, v) m -> K k /\ P (f v).
Proof.
  intros Hs. unfold map_of. rewrite exists_map. split.
  - intros [_ H] k v Hi. destruct (H (VStr k) (f v)) as (s & [= <-] & HH); [|exact HH].
    apply in_map_iff. now exists (k, v).
  - intros H. split.
    + rewrite map_map. cbn [fst]. rewrite <- (map_map fst VStr). apply NoDup_map_inj; [apply VStr_inj|]. now apply bm_sorted_NoDup.
    + intros k w Hi. apply in_map_iff in Hi. destruct Hi as ([k' v] & [= <- <-] & Hi). exists k'. split; [reflexivity|]. now apply H.
Qed.

Ltac keys_goal :=
  repeat match goal with
  | |- context [str_eqb (u ?a) (u ?b)] => let v := eval vm_compute in (str_eqb (u a) (u b)) in change (str_eqb (u a) (u b)) with v
  end; cbv iota; rewrite ?opt_id; cbv iota; cbn [option_map].
Ltac looks := rewrite ?optional_look, ?required_look, ?lookup_app, ?lookup_mem, ?lookup_opt, ?lookup_true, ?lookup_seq, ?lookup_nil; keys_goal.

(** ** Schemas *)
Definition ents (m : model) : entries := let 'Model d data := m in mem_opt "description" VStr d ++ ser_data data.
Lemma ser_ents m : ser_model m = VMap (ents m).
Proof. now destruct m. Qed.
Definition schema_fields := ["description"; "nullable"; "type"; "format"; "example"; "enum"; "items"; "properties"; "additionalProperties"; "required"; "oneOf"; "allOf"; "anyOf"].
Lemma fields_model m : fields schema_fields (ents m).
Proof.
  destruct m as [d [[n td]|l|l|l]]; cbn [ents ser_data ser_type]; try fields.
  destruct td as [s|s|s| |i|[p a r]]; cbn [ser_desc ser_object]; unfold ser_string, ser_simple; fields.
Qed.
Lemma schema_parts m : wf_model m ->
  (is_schema (ser_model m) <->
   tidy_toplevel m /\ forall r, child r m -> is_schema (ser_ref r)).
Proof.
  intros [Hw _].
  assert (Hf := fields_model m). rewrite ser_ents. unfold schema_fields in Hf. split.
  - intros H. inversion H as [n Hn|l H1 H2 H3 H4 H5 H6 H7 H8 H9 H10 H11 H12 H13 H14 H15 El]; subst.
    { exfalso. symmetry in Hn. rewrite Hn in Hf. destruct Hf as [_ Hf]. destruct (Hf _ _ (or_introl eq_refl)) as (s & Hs & E).
      cbn [In] in Hs. intuition (subst; discriminate). }
    clear H H1 H2 H3 H4 H5 H6 H9.
    destruct m as [d [[n td]|l|l|l]]; cbn [ents ser_data ser_type] in *.
    2: revert H13. 3: revert H14. 4: revert H15.
    2-4: clear; looks; rewrite nonempty_list_of_map; intros H; split; [apply H|]; intros r Hr; apply child_iff in Hr; now apply H.
    destruct td as [s|s|s| |i|[p a r]]; cbn [ser_desc ser_object] in *.
    + split; [|intros r Hr; apply child_iff in Hr; destruct Hr]. revert H7. clear. unfold ser_string, ser_simple. looks. intros H.
      cbn. intros E. rewrite E in H. cbn in H. unfold ser_strs in H. rewrite nonempty_list_of_map in H. tauto.
    + split; [exact I|intros r Hr; apply child_iff in Hr; destruct Hr].
    + split; [exact I|intros r Hr; apply child_iff in Hr; destruct Hr].
    + split; [exact I|intros r Hr; apply child_iff in Hr; destruct Hr].
    + split; [exact I|intros r Hr; apply child_iff in Hr; destruct Hr as [->|[]]]. revert H8. clear. looks. auto.
    + assert (Hp := H10). assert (Ha := H11). assert (Hr := H12). clear H7 H8 H10 H11 H12 H13 H14 H15 Hf. revert Hp Ha Hr.
      looks. intros Hp Ha Hr. split.
      * cbn. rewrite opt_seq in Hr. destruct r as [|x r]; [constructor|]. destruct Hr as (ss & E & _ & Hn); [discriminate|].
        apply VSeq_inj in E. apply (map_inj VStr (x :: r) ss) in E; [now subst|]. intros ? ? _ _. apply VStr_inj.
      * intros q Hq. rewrite opt_seq in Hp. rewrite opt_map in Ha. apply child_iff in Hq. cbn in Hq. apply in_app_iff in Hq. destruct Hq as [Hq|Hq].
        -- apply in_map_iff in Hq. destruct Hq as ([k v] & <- & Hq). cbn [snd].
           rewrite (map_of_map any_key is_schema ser_ref p) in Hp by exact Hw. eapply Hp; [|exact Hq]. intros E. subst p. destruct Hq.
        -- destruct a as [x|]; [|destruct Hq]. destruct Hq as [->|[]]. now apply Ha.
  - intros [Ht Hc]. apply schema_object; [exact Hf|..];
      destruct m as [d [[n td]|l|l|l]]; cbn [ents ser_data ser_type];
      try (destruct td as [s|s|s| |i|[p a r]]; cbn [ser_desc ser_object]; unfold ser_string, ser_simple); looks;
      try exact I; try apply opt_text; try apply opt_flag; try (now destruct (_ : option str)); try discriminate;
      try (eexists; split; [|reflexivity]; cbn; tauto).
    all: try (rewrite nonempty_list_of_map; split; [exact Ht|intros a Ha; apply Hc; now constructor]).
    + now destruct (ms_example (mst_data s)).
    + now destruct (ms_example s).
    + now destruct (ms_example s).
    + rewrite opt_map. intros v Hv. cbn in Ht. unfold ser_strs. rewrite nonempty_list_of_map. split; [congruence|]. intros. apply text_ok.
    + apply Hc. constructor.
    + rewrite opt_seq. intros _. rewrite (map_of_map any_key is_schema ser_ref p) by exact Hw. intros k v Hi. split; [exact I|].
      apply Hc. now apply ch_prop with k.
    + rewrite opt_map. intros x ->. apply Hc. constructor.
    + rewrite opt_seq. intros Hn. exists r. split; [reflexivity|]. split; [exact Hn|exact Ht].
Qed.
Lemma is_schema_iff m : wf_model m -> (is_schema (ser_model m) <-> tidy m).
Proof.
  induction m as [m IH] using model_ind'. intros Hw. rewrite schema_parts by exact Hw. split.
  - intros [Ht Hc]. constructor; [exact Ht|]. intros m' Hm. apply IH; [exact Hm|now apply (wf_model_child m)|]. exact (Hc _ Hm).
  - intros [Ht Hc]. split; [exact Ht|]. intros [l|m'|] Hr; cbn [ser_ref].
    + apply schema_reference.
    + apply IH; [exact Hr|now apply (wf_model_child m)|now apply Hc].
    + apply schema_object; [split; [constructor|intros k w []]|..]; looks; try exact I; discriminate.
Qed.
Lemma is_schema_ref r : wf_ref r -> (is_schema (ser_ref r) <-> tidy_ref r).
Proof.
  destruct r as [l|m|]; cbn [ser_ref wf_ref tidy_ref]; intros Hw.
  - split; [auto|]. intros _. apply schema_reference.
  - now apply is_schema_iff.
  - split; [auto|]. intros _. apply schema_object; [split; [constructor|intros k w []]|..]; looks; try exact I; discriminate.
Qed.

(** ** Components *)
Lemma is_scheme_iff s : is_scheme (ser_scheme s) <-> forall k, s = ApiKey k -> ak_in k <> InPath.
Proof.
  unfold is_scheme. destruct s as [[d|f d]|[i n d]]; cbn [ser_scheme ak_in ak_name ak_description]; rewrite exists_map.
  - split; [discriminate|]. intros _. left. looks. split; [fields|]. repeat split; try apply opt_text; eexists; (split; [left; reflexivity|reflexivity]) || reflexivity.
  - split; [discriminate|]. intros _. left. looks. split; [fields|]. repeat split; try apply opt_text; eexists; (split; [left; reflexivity|reflexivity]) || reflexivity.
  - looks. split.
    + intros [(_ & (s & [<-|[]] & Hs) & _)|(_ & _ & (s & Hs & E) & _)]; [discriminate|]. intros k [= <-]. cbn. intros ->. cbn in E.
      cbn [In] in Hs. intuition (subst; discriminate).
    + intros H. right. split; [fields|]. split; [eexists; split; [left; reflexivity|reflexivity]|]. split; [|split; [apply text_ok|apply opt_text]].
      specialize (H _ eq_refl). cbn in H. destruct i; [| |congruence|]; eexists; (split; [|reflexivity]); cbn; auto.
Qed.
Lemma is_components_iff c : wf_components c -> (is_components (ser_components c) <-> tidy_components c).
Proof.
  intros [[H1 H2] Hm]. unfold is_components, ser_components, ser_map. rewrite exists_map. looks. rewrite !opt_seq.
  rewrite (map_of_map component_name is_schema ser_model) by exact H1. rewrite (map_of_map component_name is_scheme ser_scheme) by exact H2.
  unfold tidy_components. split.
  - intros (_ & Hs & Hk). split.
    + intros n m Hi. destruct (Hs (in_nonempty _ _ Hi) n m Hi) as [Hn Hs'].
      split; [exact Hn|]. apply is_schema_iff; [now apply (Hm n)|exact Hs'].
    + intros n s Hi. destruct (Hk (in_nonempty _ _ Hi) n s Hi) as [Hn Hs'].
      split; [exact Hn|]. now apply is_scheme_iff.
  - intros (Hs & Hk). split; [fields|]. split; intros _ k v Hi.
    + destruct (Hs k v Hi). split; [assumption|]. apply is_schema_iff; [now apply (Hm k)|assumption].
    + destruct (Hk k v Hi). split; [assumption|]. now apply is_scheme_iff.
Qed.

(** ** Parameters, bodies, responses *)
Lemma ser_in_path i : ser_in i = VStr (u "path") <-> i = InPath.
Proof. destruct i; split; intros H; try reflexivity; discriminate. Qed.
Lemma in_ok i : one_of ["query"; "header"; "path"; "cookie"] (ser_in i).
Proof. destruct i; eexists; (split; [|reflexivity]); cbn; auto. Qed.
Lemma is_parameter_iff e : (forall r, pr_schema (snd e) = Some r -> wf_ref r) -> (is_parameter (ser_parameter e) <-> tidy_parameter (snd e)).
Proof.
  intros Hw. unfold is_parameter, tidy_parameter. destruct e as [n [d i r p s]].
  cbn [ser_parameter snd pr_description pr_in pr_required pr_deprecated pr_schema] in *. rewrite exists_map. looks. split.
  - intros (_ & _ & _ & _ & _ & _ & Hs & Hp). split.
    + destruct s as [x|]; cbn in Hs; [|destruct Hs]. exists x. split; [reflexivity|]. apply is_schema_ref; [now apply Hw|exact Hs].
    + intros ->. specialize (Hp eq_refl). now destruct r.
  - intros [(x & -> & Hx) Hp]. split; [fields|]. split; [apply text_ok|]. split; [apply in_ok|]. split; [apply opt_text|].
    split; [apply opt_flag|]. split; [apply opt_flag|]. split; [cbn; apply is_schema_ref; auto|].
    intros E. injection E as E. assert (Ei : i = InPath) by (apply ser_in_path; unfold ser_in; now rewrite E). rewrite (Hp Ei). reflexivity.
Qed.

Lemma is_parameters_iff (m : bmap str op_parameter) : bm_sorted m -> (forall k a r, In (k, a) m -> pr_schema a = Some r -> wf_ref r) ->
  (is_parameters (ser_parameters m) <-> forall k p, In (k, p) m -> tidy_parameter p).
Proof.
  intros Hs Hw. unfold is_parameters, ser_parameters. rewrite list_of_map. split.
  - intros [H _] k p Hi. apply (is_parameter_iff (k, p)); [intros r Hr; eapply Hw; eauto|]. now apply H.
  - intros H. split.
    + intros [k p] Hi. apply is_parameter_iff; [intros r Hr; eapply Hw; eauto|]. now apply (H k p).
    + intros l [= <-]. rewrite map_map.
      assert (E : map (fun x => member "name" (ser_parameter x)) m = map (fun k => Some (VStr k)) (bm_keys m)).
      { unfold bm_keys. rewrite map_map. apply map_ext. now intros [k p]. }
      assert (Hn : NoDup (map (fun x => member "name" (ser_parameter x)) m)).
      { rewrite E. apply NoDup_map_inj; [congruence|]. now apply bm_sorted_NoDup. }
      rewrite <- (map_map (fun x => member "name" (ser_parameter x)) (fun x => x)), map_id in Hn.
      apply (NoDup_map_inv fst). rewrite map_map. exact Hn.
Qed.
Lemma is_content_iff r : wf_ref r -> (is_content (ser_content r) <-> tidy_ref r).
Proof.
  intros Hw. unfold is_content, ser_content, map_of. rewrite exists_map. rewrite <- is_schema_ref by exact Hw. split.
  - intros [_ H]. destruct (H _ _ (or_introl eq_refl)) as (s & _ & _ & Hm). unfold is_media_type in Hm. rewrite exists_map in Hm.
    destruct Hm as [_ Hm]. revert Hm. looks. auto.
  - intros H. split; [repeat constructor; intros []|]. intros k w [[= <- <-]|[]]. eexists. split; [reflexivity|]. split; [exact I|].
    unfold is_media_type. rewrite exists_map. split; [fields|]. looks. exact H.
Qed.
Lemma is_body_iff b : wf_ref (rb_schema b) -> (is_body (ser_body b) <-> rb_description b <> None /\ tidy_ref (rb_schema b)).
Proof.
  intros Hw. unfold is_body, ser_body. rewrite exists_map. looks. rewrite is_content_iff by exact Hw. split.
  - intros (_ & Hd & Hc & _). split; [|exact Hc]. intros E. rewrite E in Hd. destruct Hd as [s Hd]. discriminate.
  - intros [Hd Hc]. split; [fields|]. split; [|split; [exact Hc|apply opt_flag]]. destruct (rb_description b); [apply text_ok|congruence].
Qed.
Lemma is_response_iff r : (forall s, rs_schema r = Some s -> wf_ref s) -> (is_response (ser_response r) <-> forall s, rs_schema r = Some s -> tidy_ref s).
Proof.
  intros Hw. unfold is_response, ser_response. rewrite exists_map. looks. rewrite opt_map. split.
  - intros (_ & _ & H) s Hs. apply is_content_iff; auto.
  - intros H. split; [fields|]. split; [apply text_ok|]. intros s Hs. apply is_content_iff; auto.
Qed.
Lemma is_responses_iff (m : bmap N response) : bm_sorted m -> (forall c r s, In (c, r) m -> rs_schema r = Some s -> wf_ref s) ->
  (is_responses (VMap (map (fun e => (VNum (fst e), ser_response (snd e))) m)) <->
   m <> [] /\ forall c r, In (c, r) m -> (100 <= c <= 599)%N /\ forall s, rs_schema r = Some s -> tidy_ref s).
Proof.
  intros Hs Hw. unfold is_responses. rewrite exists_map. split.
  - intros (Hn & _ & H). split; [now destruct m|]. intros c r Hi. destruct (H (VNum c) (ser_response r)) as (c' & [= <-] & Hc & Hr).
    { apply in_map_iff. now exists (c, r). }
    split; [exact Hc|]. apply is_response_iff; [intros s; now apply (Hw c)|exact Hr].
  - intros (Hn & H). split; [now destruct m|]. split.
    + rewrite map_map. cbn [fst]. rewrite <- (map_map fst VNum). apply NoDup_map_inj; [congruence|]. now apply bm_sorted_NoDup.
    + intros k w Hi. apply in_map_iff in Hi. destruct Hi as ([c r] & [= <- <-] & Hi). exists c. split; [reflexivity|].
      destruct (H c r Hi) as [Hc Hr]. split; [exact Hc|]. apply is_response_iff; [intros s; now apply (Hw c)|exact Hr].
Qed.
Lemma requirement_ok s : bm_sorted s -> is_requirement (ser_map ser_strs s).
Proof. intros Hs. unfold is_requirement, ser_map. rewrite (map_of_map any_key (list_of is_text) ser_strs) by exact Hs. intros k v _. split; [exact I|apply texts_ok]. Qed.

(** ** Operations and path items *)
Lemma is_operation_iff o : wf_operation o ->
  (is_operation (ser_operation o) <-> tidy_operation o /\ forall k c, In (k, c) (op_callbacks o) -> map_of any_key is_path_item (ser_callback c)).
Proof.
  intros (Hsec & Hres & Hpar & Hcb & Hr).
  unfold ser_operation, ser_operation_with. match goal with |- is_operation (VMap ?l) <-> _ => set (L := l) end.
  assert (Hf : fields ["tags"; "summary"; "description"; "operationId"; "parameters"; "requestBody"; "responses"; "callbacks"; "deprecated"; "security"] L)
    by (unfold L; fields).
  assert (Hp : optional "parameters" is_parameters L <-> forall k p, In (k, p) (op_parameters o) -> tidy_parameter p).
  { unfold L. looks. rewrite opt_seq, is_parameters_iff by (auto; intros k a r Hi Ha; apply Hr; now apply (orf_parameter r o k a)).
    split; [|auto]. intros H k p Hi. eapply H; [exact (in_nonempty _ _ Hi)|exact Hi]. }
  assert (Hb : optional "requestBody" is_body L <-> forall b, op_body o = Some b -> rb_description b <> None /\ tidy_ref (rb_schema b)).
  { unfold L. looks. rewrite opt_map. split; intros H b Hb; (apply is_body_iff || apply (is_body_iff b)); auto; apply Hr; now apply (orf_body _ o b). }
  assert (Hs : required "responses" is_responses L <-> op_responses o <> [] /\
    forall c r, In (c, r) (op_responses o) -> (100 <= c <= 599)%N /\ forall s, rs_schema r = Some s -> tidy_ref s).
  { unfold L. looks. apply is_responses_iff; [exact Hres|]. intros c r s Hi Hx. apply Hr. now apply (orf_response s o c r). }
  assert (Hc : optional "callbacks" (map_of any_key (map_of any_key is_path_item)) L <->
    forall k c, In (k, c) (op_callbacks o) -> map_of any_key is_path_item (ser_callback c)).
  { unfold L. looks. rewrite opt_seq. rewrite (map_of_map any_key (map_of any_key is_path_item) ser_callback) by exact Hcb. split.
    - intros H k c Hi. apply (H (in_nonempty _ _ Hi) k c Hi).
    - intros H _ k c Hi. split; [exact I|now apply (H k)]. }
  unfold tidy_operation. split.
  - intros H. inversion H as [l H1 H2 H3 H4 H5 H6 H7 H8 H9 H10 H11 E]; subst. tauto.
  - intros ((T1 & T2 & T3 & T4) & T5). apply operation_object; [exact Hf|..]; try tauto; unfold L; looks; try apply opt_text; try apply opt_flag.
    + rewrite opt_seq. intros _. apply texts_ok.
    + rewrite opt_seq. intros _. rewrite list_of_map. intros s Hi. now apply requirement_ok, Hsec.
Qed.
Lemma optional_method v m : In m methods -> exists m', u m = method_name m' /\
  lookup (u m) (mem_opt "summary" VStr (pv_summary v) ++ mem_opt "description" VStr (pv_description v) ++ map ser_method (pv_operations v) ++
     mem_seq "parameters" ser_parameters (pv_parameters v)) = lookup (method_name m') (map ser_method (pv_operations v)).
Proof.
  intros Hm. cbn [In methods] in Hm. repeat (destruct Hm as [<-|Hm]); [exists GET|exists PUT|exists POST|exists DELETE|exists OPTIONS|exists HEAD|exists PATCH|exists TRACE|destruct Hm];
    (split; [reflexivity|]); looks; match goal with |- context [lookup ?k] => destruct (lookup k (map ser_method (pv_operations v))) eqn:E end; rewrite ?E; auto.
Qed.

Lemma method_listed m : exists k, In k methods /\ u k = method_name m.
Proof. destruct m; eexists; (split; [|reflexivity]); cbn; auto 10. Qed.
Lemma fields_path_value v l : wf_path_value v -> ser_path_value v = VMap l -> fields (["summary"; "description"; "parameters"] ++ methods) l.
Proof.
  intros Hw E. split.
  - pose proof (QK_path_value v Hw) as H. rewrite E in H. exact H.
  - injection E as <-. intros k w Hi. rewrite !in_app_iff in Hi. destruct Hi as [Hi|[Hi|[Hi|Hi]]].
    + destruct (pv_summary v); [|destruct Hi]. destruct Hi as [[= <- _]|[]]. exists "summary". split; [cbn; auto|reflexivity].
    + destruct (pv_description v); [|destruct Hi]. destruct Hi as [[= <- _]|[]]. exists "description". split; [cbn; auto|reflexivity].
    + apply in_map_iff in Hi. destruct Hi as ([m o] & [= <- _] & _). destruct (method_listed m) as (s & Hs & Es). exists s.
      split; [apply in_app_iff; now right|]. now rewrite Es.
    + destruct (pv_parameters v); [destruct Hi|]. destruct Hi as [[= <- _]|[]]. exists "parameters". split; [cbn; auto|reflexivity].
Qed.
Lemma is_path_item_iff v : wf_path_value v ->
  (is_path_item (ser_path_value v) <-> tidy_path_value v /\ forall m o, In (m, o) (pv_operations v) -> is_operation (ser_operation o)).
Proof.
  intros Hw. pose proof (fields_path_value v _ Hw eq_refl) as Hf. destruct Hw as (Hops & Hpar & Hr).
  unfold ser_path_value, ser_path_value_with. fold ser_operation.
  change (map (fun e => (VStr (method_name (fst e)), ser_operation (snd e))) (pv_operations v)) with (map ser_method (pv_operations v)) in *.
  match goal with |- is_path_item (VMap ?l) <-> _ => set (L := l) in * end.
  assert (Hp : optional "parameters" is_parameters L <-> tidy_path_value v).
  { unfold L. rewrite optional_look, !lookup_app, lookup_methods by (apply not_method; cbn; auto). looks. rewrite opt_seq.
    rewrite is_parameters_iff by (auto; intros k a r Hi Ha; apply Hr; now apply (prf_parameter r v k a)).
    split; [|intros H _; exact H]. intros H k p Hi. eapply H; [exact (in_nonempty _ _ Hi)|exact Hi]. }
  assert (Ho : (forall m, In m methods -> optional m is_operation L) <-> forall m o, In (m, o) (pv_operations v) -> is_operation (ser_operation o)).
  { split.
    - intros H m o Hi. destruct (method_listed m) as (k & Hk & Ek). apply (H k Hk).
      destruct (optional_method v k Hk) as (m' & Em & El). rewrite Ek in Em. apply method_name_inj in Em. subst m'.
      unfold L. rewrite El, ReadFacts.lookup_method. now rewrite (bm_sorted_In_get _ _ _ Hops Hi).
    - intros H k Hk w Hw. destruct (optional_method v k Hk) as (m & Em & El). unfold L in Hw. rewrite El, ReadFacts.lookup_method in Hw.
      destruct (bm_get m (pv_operations v)) as [o|] eqn:Eo; [|discriminate]. injection Hw as <-. apply (H m). now apply bm_get_In. }
  split.
  - intros H. inversion H as [l H1 H2 H3 H4 H5 E]; subst. tauto.
  - intros [H1 H2]. apply path_item_object; [exact Hf|..]; try tauto; unfold L; rewrite optional_look, !lookup_app, lookup_methods by (apply not_method; cbn; auto);
      looks; apply opt_text.
Qed.

(** ** All paths *)
Lemma map_of_paths (K : str -> Prop) (P : value -> Prop) l :
  map_of K P (ser_paths l) <-> NoDup (map (fun e => render_path (fst e)) l) /\ forall p v, In (p, v) l -> K (render_path p) /\ P (ser_path_value v).
Proof.
  unfold map_of, ser_paths, ser_paths_with. fold ser_path_value. rewrite exists_map. rewrite map_map. cbn [fst].
  rewrite <- (map_map (fun e => render_path (fst e)) VStr). split.
  - intros [Hn H]. split; [now apply NoDup_map_inv in Hn|]. intros p v Hi.
    destruct (H (VStr (render_path p)) (ser_path_value v)) as (s & [= <-] & HH); [|exact HH]. apply in_map_iff. now exists (p, v).
  - intros [Hn H]. split; [apply NoDup_map_inj; [apply VStr_inj|exact Hn]|]. intros k w Hi. apply in_map_iff in Hi.
    destruct Hi as ([p v] & [= <- <-] & Hi). exists (render_path p). split; [reflexivity|now apply H].
Qed.
Lemma tidy_paths_unfold l : tidy_paths l <->
  NoDup (map (fun e => render_path (fst e)) l) /\
  forall p v, In (p, v) l -> tidy_path_value v /\
    forall m o, In (m, o) (pv_operations v) -> tidy_operation o /\ forall k c, In (k, c) (op_callbacks o) -> tidy_paths (cb_paths c).
Proof.
  split.
  - intros (Hd & Hv & Ho). split; [apply Hd; constructor|]. intros p v Hi. split; [apply (Hv p v), has_path_self, Hi|].
    intros m o Hm. split; [apply Ho; eapply has_operation_self; eauto|]. intros k c Hk. split; [|split].
    + intros l' Hw. apply Hd. apply (within_trans l (cb_paths c)); [|exact Hw]. eapply wi_callback; eauto using wi_self.
    + intros p' v' H. eapply Hv, has_path_nested; eauto.
    + intros o' H. eapply Ho, has_operation_nested; eauto.
  - intros [Hn H].
    assert (Hs : forall l', within l l' -> l' = l \/ exists p v m o k c, In (p, v) l /\ In (m, o) (pv_operations v) /\ In (k, c) (op_callbacks o) /\ within (cb_paths c) l').
    { induction 1 as [|l' p v m o k c Hw IH H1 H2 H3]; [now left|]. right. destruct IH as [->|(p0 & v0 & m0 & o0 & k0 & c0 & A1 & A2 & A3 & A4)].
      - exists p, v, m, o, k, c. repeat split; auto. constructor.
      - exists p0, v0, m0, o0, k0, c0. repeat split; auto. eapply wi_callback; eauto. }
    split; [|split].
    + intros l' Hw. apply Hs in Hw. destruct Hw as [->|(p & v & m & o & k & c & A1 & A2 & A3 & A4)]; [exact Hn|].
      destruct (proj2 (proj2 (H p v A1) m o A2) k c A3) as (Hd & _). now apply Hd.
    + intros p0 v0 (l' & Hw & Hi). apply Hs in Hw. destruct Hw as [->|(p & v & m & o & k & c & A1 & A2 & A3 & A4)]; [now apply (H p0)|].
      destruct (proj2 (proj2 (H p v A1) m o A2) k c A3) as (_ & Hv & _). apply (Hv p0 v0). exists l'. now split.
    + intros o0 (p0 & v0 & m0 & (l' & Hw & Hi) & Ho). apply Hs in Hw. destruct Hw as [->|(p & v & m & o & k & c & A1 & A2 & A3 & A4)]; [now apply (proj2 (H p0 v0 Hi) m0)|].
      destruct (proj2 (proj2 (H p v A1) m o A2) k c A3) as (_ & _ & Hx). apply Hx. exists p0, v0, m0. split; [exists l'; now split|exact Ho].
Qed.
Lemma wf_paths_nested l p v m o k c : wf_paths l -> In (p, v) l -> In (m, o) (pv_operations v) -> In (k, c) (op_callbacks o) -> wf_paths (cb_paths c).
Proof.
  intros (Hv & Ho) H1 H2 H3. split.
  - intros p' v' H. eapply Hv, has_path_nested; eauto.
  - intros o' H. eapply Ho, has_operation_nested; eauto.
Qed.
Lemma is_callback_iff c : wf_paths (cb_paths c) -> (map_of any_key is_path_item (ser_callback c) <-> tidy_paths (cb_paths c)).
Proof.
  induction c as [c IH] using callback_ind'. destruct c as [l]. cbn [cb_paths] in *. intros Hw.
  change (ser_callback (Callback l)) with (ser_paths l). rewrite map_of_paths, tidy_paths_unfold.
  assert (Hs : forall p v, In (p, v) l -> (is_path_item (ser_path_value v) <-> tidy_path_value v /\
    forall m o, In (m, o) (pv_operations v) -> tidy_operation o /\ forall k c, In (k, c) (op_callbacks o) -> tidy_paths (cb_paths c))).
  { intros p v Hi. rewrite is_path_item_iff by (apply (proj1 Hw p), has_path_self, Hi).
    assert (Hop : forall m o, In (m, o) (pv_operations v) -> (is_operation (ser_operation o) <-> tidy_operation o /\ forall k c, In (k, c) (op_callbacks o) -> tidy_paths (cb_paths c))).
    { intros m o Hm. rewrite is_operation_iff by (apply (proj2 Hw); eapply has_operation_self; eauto).
      assert (Hcb : forall k c, In (k, c) (op_callbacks o) -> (map_of any_key is_path_item (ser_callback c) <-> tidy_paths (cb_paths c))).
      { intros k c Hk. eapply IH; eauto. eapply wf_paths_nested; eauto. }
      split; intros [T1 T2]; (split; [exact T1|]); intros k c Hk; apply (Hcb k c Hk), (T2 k c Hk). }
    split; intros [T1 T2]; (split; [exact T1|]); intros m o Hm; apply (Hop m o Hm), (T2 m o Hm). }
  split; intros [T1 T2]; (split; [exact T1|]); intros p v Hi.
  - apply (Hs p v Hi), (T2 p v Hi).
  - split; [exact I|]. apply (Hs p v Hi), (T2 p v Hi).
Qed.
Lemma path_key_iff p : path_key (render_path p) <-> p <> [].
Proof.
  split.
  - intros [s H] ->. discriminate.
  - intros H. destruct p as [|e p]; [congruence|]. now eexists.
Qed.

(** ** The document *)
Lemma is_info_ok i : is_info (ser_info i).
Proof. unfold is_info, ser_info. rewrite exists_map. split; [fields|]. looks. repeat split; try apply text_ok; apply opt_text. Qed.
Lemma is_tag_ok t : is_tag (ser_tag t).
Proof. unfold is_tag, ser_tag. rewrite exists_map. split; [fields|]. looks. repeat split; try apply text_ok; apply opt_text. Qed.
Lemma is_server_ok s : is_server (ser_server s).
Proof. unfold is_server, ser_server. rewrite exists_map. split; [fields|]. looks. repeat split; try apply text_ok; apply opt_text. Qed.
Lemma is_tags_ok (m : bmap str tag) : bm_sorted m -> is_tags (VSeq (map ser_tag m)).
Proof.
  intros Hs. split; [apply list_of_map; intros; apply is_tag_ok|]. intros l [= <-]. rewrite map_map.
  assert (E : map (fun x => member "name" (ser_tag x)) m = map (fun k => Some (VStr k)) (bm_keys m)).
  { unfold bm_keys. rewrite map_map. apply map_ext. now intros [k p]. }
  rewrite E. apply NoDup_map_inj; [congruence|]. now apply bm_sorted_NoDup.
Qed.
Lemma conforms_iff d : wf_opg d -> (conforms (ser_opg d) <-> tidy_document d).
Proof.
  intros (Ht & Hp & Hc). unfold conforms, ser_opg. rewrite exists_map.
  match goal with |- (fields _ ?l /\ _) <-> _ => set (L := l) end.
  assert (Hf : fields ["openapi"; "info"; "servers"; "paths"; "components"; "tags"] L) by (unfold L; fields).
  assert (H1 : required "openapi" (one_of ["3.0.3"]) L) by (unfold L; looks; eexists; split; [left; reflexivity|reflexivity]).
  assert (H2 : required "info" is_info L) by (unfold L; looks; apply is_info_ok).
  assert (H3 : optional "servers" (list_of is_server) L) by (unfold L; looks; rewrite opt_seq; intros _; apply list_of_map; intros; apply is_server_ok).
  assert (H4 : optional "tags" is_tags L) by (unfold L; looks; rewrite opt_seq; intros _; now apply is_tags_ok).
  assert (H5 : optional "components" is_components L <-> tidy_components (og_components d)) by (unfold L; looks; now apply is_components_iff).
  assert (H6 : required "paths" (map_of path_key is_path_item) L <-> og_paths d <> [] /\ (forall p v, In (p, v) (og_paths d) -> p <> []) /\ tidy_paths (og_paths d)).
  { unfold L. looks. pose proof (is_callback_iff (Callback (og_paths d)) Hp) as Hcb. cbn [cb_paths] in Hcb.
    change (ser_callback (Callback (og_paths d))) with (ser_paths (og_paths d)) in Hcb. rewrite map_of_paths in Hcb.
    destruct (og_paths d) as [|e l] eqn:E; cbn [opt_list]; [tauto|]. rewrite <- E in *. rewrite map_of_paths. split.
    - intros [T1 T2]. split; [congruence|]. split; [intros p v Hi; apply path_key_iff, (T2 p v Hi)|]. apply Hcb. split; [exact T1|].
      intros p v Hi. split; [exact I|apply (T2 p v Hi)].
    - intros (_ & T1 & T2). apply Hcb in T2. destruct T2 as [T2 T3]. split; [exact T2|]. intros p v Hi.
      split; [apply path_key_iff, (T1 p v Hi)|apply (T3 p v Hi)]. }
  unfold tidy_document. tauto.
Qed.
