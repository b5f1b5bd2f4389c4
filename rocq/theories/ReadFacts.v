(** Facts about reading: the reader of ReadSpec recovers what was serialised. *)
From Verif Require Import SerSpec ReadSpec SchemaFacts SerFacts SerFacts2 SerFacts3 SerFacts4.
Local Open Scope string_scope. Local Open Scope list_scope.

Lemma find_lookup {B} (f : value -> B) k l : find f k l = option_map f (lookup (u k) l).
Proof. induction l as [|[[| | |s| |] v] l IH]; cbn; auto. destruct (str_eqb (u k) s); auto. Qed.
Lemma all_map {A B} (f : B -> option A) (g : A -> B) l : (forall a, In a l -> f (g a) = Some a) -> all f (map g l) = Some l.
Proof.
  induction l as [|a l IH]; intros H; [reflexivity|]. cbn [map all]. rewrite H by now left.
  fold (@all B A f). now rewrite IH by (intros; apply H; now right).
Qed.
Lemma read_strs l : sequence text (ser_strs l) = Some l.
Proof. cbn [sequence ser_strs]. now apply all_map. Qed.
Lemma read_dictionary {A} (f : value -> option A) (g : A -> value) (m : list (str * A)) :
  (forall k a, In (k, a) m -> f (g a) = Some a) -> dictionary f (VMap (map (fun e => (VStr (fst e), g (snd e))) m)) = Some m.
Proof. intros H. cbn [dictionary]. apply all_map. intros [k a] Hi. cbn. now rewrite (H k a Hi). Qed.
Lemma read_optional {A} (f : value -> option A) (g : A -> value) o : (forall a, o = Some a -> f (g a) = Some a) ->
  match option_map f (option_map g o) with Some (Some b) => Some (Some b) | Some None => None | None => Some None end = Some o.
Proof. destruct o as [a|]; cbn; intros H; [|reflexivity]. now rewrite H. Qed.
Lemma read_texts o : match option_map text (option_map VStr o) with Some (Some b) => Some (Some b) | Some None => None | None => Some None end = Some o.
Proof. now apply read_optional. Qed.
Lemma read_list {A} (f : value -> option (list A)) (g : list A -> value) l : f (g l) = Some l ->
  match option_map f (opt_list g l) with Some r => r | None => Some [] end = Some l.
Proof. destruct l; cbn; auto. Qed.
Lemma read_true b : match option_map flag_ (opt_true b) with Some r => r | None => Some false end = Some b.
Proof. now destruct b. Qed.

Ltac keys_goal :=
  repeat match goal with
  | |- context [str_eqb (u ?a) (u ?b)] => let v := eval vm_compute in (str_eqb (u a) (u b)) in change (str_eqb (u a) (u b)) with v
  end; cbv iota; rewrite ?opt_id; cbv iota; cbn [option_map].
Ltac finds := unfold required, optional, default; rewrite ?find_lookup, ?lookup_app, ?lookup_mem, ?lookup_opt, ?lookup_true, ?lookup_seq, ?lookup_nil; keys_goal;
  rewrite ?read_texts, ?read_true; keys_goal; cbn [text flag_]; keys_goal.

Lemma strip_app p s : strip p (p ++ s) = Some s.
Proof. induction p; cbn; [reflexivity|]. now rewrite N.eqb_refl. Qed.

(** ** Schemas *)
Lemma read_simple_ok a s b : (forall k, In k [u "format"; u "example"] -> lookup k a = None) -> (forall k, In k [u "format"; u "example"] -> lookup k b = None) ->
  read_simple (a ++ ser_simple s ++ b) = Some s.
Proof.
  intros Ha Hb. unfold read_simple, ser_simple. unfold optional. rewrite !find_lookup, !lookup_app, !lookup_opt, !Ha, !Hb by (cbn; auto). keys_goal.
  rewrite !read_texts. now destruct s.
Qed.

Definition reads (m : model) : Prop := read_ref (ser_model m) = Some (Inline m).
Lemma reads_ref x : match x with Inline m => reads m | _ => True end -> read_ref (ser_ref x) = Some x.
Proof.
  destruct x as [l|m|]; cbn [ser_ref]; auto.
Qed.
Definition read_desc (t : str) (l : entries) : option type_desc :=
  if str_eqb t (u "string") then
    let? v := optional (sequence text) "enum" l in let? s := read_simple l in
    Some (TdString {| mst_variants := v; mst_data := s |})
  else if str_eqb t (u "number") then let? s := read_simple l in Some (TdNumber s)
  else if str_eqb t (u "integer") then let? s := read_simple l in Some (TdInteger s)
  else if str_eqb t (u "boolean") then Some TdBoolean
  else if str_eqb t (u "array") then let? r := required read_ref "items" l in Some (TdArray r)
  else if str_eqb t (u "object") then
    let? p := default [] (dictionary read_ref) "properties" l in
    let? a := optional read_ref "additionalProperties" l in
    let? r := default [] (sequence text) "required" l in
    Some (TdObject (MObject p a r))
  else None.
Lemma read_ref_eq l : l <> [] -> read_ref (VMap l) =
  match find text "$ref" l with
  | Some o => let? s := o in let? n := strip (u "#/components/schemas/") s in Some (Link n)
  | None =>
      let? d := optional text "description" l in
      match find text "type" l with
      | Some o => let? t := o in let? n := default false flag_ "nullable" l in let? td := read_desc t l in Some (Inline (Model d (Single (MType n td))))
      | None =>
          match find (sequence read_ref) "oneOf" l, find (sequence read_ref) "allOf" l, find (sequence read_ref) "anyOf" l with
          | Some o, None, None => let? rs := o in Some (Inline (Model d (OneOf rs)))
          | None, Some o, None => let? rs := o in Some (Inline (Model d (AllOf rs)))
          | None, None, Some o => let? rs := o in Some (Inline (Model d (AnyOf rs)))
          | _, _, _ => None
          end
      end
  end.
Proof. destruct l as [|e l]; [congruence|reflexivity]. Qed.

Lemma read_ser_model m : reads m.
Proof.
  induction m as [m IH] using model_ind'.
  assert (Hc : forall x, child x m -> read_ref (ser_ref x) = Some x).
  { intros x Hx. apply reads_ref. destruct x; auto. }
  clear IH. unfold reads. destruct m as [d data].
  pose proof (model_nonempty (Model d data)) as Hne. cbn [ser_model] in *.
  rewrite read_ref_eq by congruence. clear Hne.
  rewrite !find_lookup, !lookup_app, !lookup_opt. unfold optional, default. rewrite !find_lookup, !lookup_app, !lookup_opt.
  rewrite !(lookup_data _ data) by (cbn; auto). keys_goal. rewrite read_texts.
  destruct data as [[n td]|l|l|l].
  2-4: cbn [ser_data]; rewrite !lookup_mem; keys_goal; cbn [sequence];
       rewrite (all_map read_ref ser_ref l) by (intros a Ha; apply Hc; now constructor); reflexivity.
  cbn [ser_data ser_type]. rewrite !lookup_app, !lookup_true, ser_desc_type, !(ser_desc_no _ td) by (cbn; auto 10). keys_goal.
  cbn [text].
  assert (Hn : match option_map flag_ (opt_true n) with Some r => r | None => Some false end = Some n) by now destruct n.
  rewrite Hn.
  set (pre := fun t => mem_opt "description" VStr d ++ mem_true "nullable" n ++ mem "type" (VStr t)).
  assert (Epre : forall t x, mem_opt "description" VStr d ++ mem_true "nullable" n ++ mem "type" (VStr t) ++ x = pre t ++ x)
    by (intros; unfold pre; now rewrite <- !app_assoc).
  assert (Hpre : forall k, In k [u "format"; u "example"; u "enum"; u "items"; u "properties"; u "additionalProperties"; u "required"] ->
                 forall t, lookup k (pre t) = None).
  { intros k Hk t. unfold pre. rewrite !lookup_app, lookup_opt, lookup_true, lookup_mem. cbn [In] in Hk. intuition (subst; keys_goal; reflexivity). }
  assert (Hs : forall k, In k [u "enum"; u "items"; u "properties"; u "additionalProperties"; u "required"] -> forall s, lookup k (ser_simple s) = None).
  { intros k Hk s. rewrite simple_lookup. cbn [In] in Hk. intuition (subst; keys_goal; reflexivity). }
  destruct td as [s|s|s| |i|[p a r]]; cbn [ser_desc].
  - unfold read_desc. keys_goal. rewrite Epre.
    unfold optional. rewrite find_lookup. rewrite lookup_app, Hpre by (cbn; auto). rewrite string_lookup, Hs by (cbn; auto). keys_goal.
    rewrite (read_optional (sequence text) ser_strs) by (intros; apply read_strs).
    unfold ser_string. rewrite (app_assoc _ (mem_opt "enum" _ _)).
    rewrite <- (app_nil_r (ser_simple _)). rewrite read_simple_ok.
    + now destruct s.
    + intros k Hk. rewrite lookup_app, Hpre, lookup_opt by (cbn in *; intuition). cbn [In] in Hk. intuition (subst; keys_goal; reflexivity).
    + reflexivity.
  - unfold read_desc. keys_goal. rewrite Epre.
    rewrite <- (app_nil_r (ser_simple _)). rewrite read_simple_ok; [reflexivity| |reflexivity]. intros k Hk. apply Hpre. cbn in *; intuition.
  - unfold read_desc. keys_goal. rewrite Epre.
    rewrite <- (app_nil_r (ser_simple _)). rewrite read_simple_ok; [reflexivity| |reflexivity]. intros k Hk. apply Hpre. cbn in *; intuition.
  - reflexivity.
  - unfold read_desc. finds. rewrite Hc by constructor. reflexivity.
  - unfold read_desc. cbn [ser_object]. finds.
    rewrite (read_list (dictionary read_ref)).
    2: { apply (read_dictionary read_ref ser_ref p). intros k x Hx. apply Hc. now apply ch_prop with k. }
    rewrite (read_optional read_ref (fun x => ser_ref x)) by (intros x ->; apply Hc; constructor).
    rewrite (read_list (sequence text)) by apply read_strs. reflexivity.
Qed.
Lemma read_ser_ref x : read_ref (ser_ref x) = Some x.
Proof. apply reads_ref. destruct x; auto. apply read_ser_model. Qed.
Lemma read_ser_schema m : read_schema (ser_model m) = Some m.
Proof. unfold read_schema. now rewrite (read_ser_model m). Qed.

(** ** The other objects *)
Lemma read_ser_in i : read_in (ser_in i) = Some i.
Proof. now destruct i. Qed.
Lemma read_ser_scheme s : read_scheme (ser_scheme s) = Some s.
Proof.
  destruct s as [[d|f d]|[i n d]]; cbn [ser_scheme read_scheme ak_in ak_name ak_description]; finds; try reflexivity.
  rewrite read_ser_in. reflexivity.
Qed.
Lemma read_ser_components c : read_components (ser_components c) = Some c.
Proof.
  unfold ser_components, read_components. finds.
  rewrite (read_list (dictionary read_schema)) by (apply (read_dictionary read_schema ser_model); intros; apply read_ser_schema).
  rewrite (read_list (dictionary read_scheme)) by (apply (read_dictionary read_scheme ser_scheme); intros; apply read_ser_scheme).
  now destruct c.
Qed.
Lemma read_ser_parameter e : read_parameter (ser_parameter e) = Some e.
Proof.
  destruct e as [n [d i r p s]]. cbn [ser_parameter read_parameter pr_description pr_in pr_required pr_deprecated pr_schema]. finds.
  rewrite read_ser_in. rewrite (read_optional read_ref ser_ref) by (intros; apply read_ser_ref). reflexivity.
Qed.
Lemma read_ser_parameters m : sequence read_parameter (ser_parameters m) = Some m.
Proof. cbn [ser_parameters sequence]. apply all_map. intros; apply read_ser_parameter. Qed.
Lemma read_ser_content r : read_content (ser_content r) = Some r.
Proof. unfold ser_content, read_content. finds. cbv beta iota. finds. rewrite read_ser_ref. reflexivity. Qed.
Lemma read_ser_body b : read_body (ser_body b) = Some b.
Proof.
  unfold ser_body, read_body. finds. rewrite read_ser_content. destruct b as [[d|] r s]; reflexivity.
Qed.
Lemma read_ser_response r : read_response (ser_response r) = Some r.
Proof.
  unfold ser_response, read_response. finds. rewrite (read_optional read_content ser_content) by (intros; apply read_ser_content).
  now destruct r.
Qed.
Lemma read_ser_responses (m : list (N * response)) : read_responses (VMap (map (fun e => (VNum (fst e), ser_response (snd e))) m)) = Some m.
Proof. cbn [read_responses]. apply all_map. intros [k a] _. cbn [fst snd]. now rewrite read_ser_response. Qed.
Lemma read_ser_security (l : list (bmap str (list str))) : sequence (dictionary (sequence text)) (VSeq (map (ser_map ser_strs) l)) = Some l.
Proof. cbn [sequence]. apply all_map. intros m _. apply (read_dictionary (sequence text) ser_strs). intros; apply read_strs. Qed.

Lemma read_ser_operation o : (forall k c, In (k, c) (op_callbacks o) -> read_callback (ser_callback c) = Some c) ->
  read_operation (ser_operation o) = Some o.
Proof.
  intros H. unfold ser_operation, ser_operation_with, read_operation.
  match goal with |- read_operation_with _ (VMap ?l) = _ => remember l as L eqn:EL end.
  assert (E0 : default [] (sequence text) "tags" L = Some (op_tags o)) by (subst L; finds; rewrite (read_list (sequence text)) by (apply read_strs); reflexivity).
  assert (E1 : optional text "summary" L = Some (op_summary o)) by (subst L; finds; reflexivity).
  assert (E2 : optional text "operationId" L = Some (op_id o)) by (subst L; finds; reflexivity).
  assert (E3 : optional text "description" L = Some (op_description o)) by (subst L; finds; reflexivity).
  assert (E4 : default false flag_ "deprecated" L = Some (op_deprecated o)) by (subst L; finds; reflexivity).
  assert (E5 : default [] (sequence (dictionary (sequence text))) "security" L = Some (op_security o)) by (subst L; finds; rewrite (read_list (sequence (dictionary (sequence text)))) by (apply read_ser_security); reflexivity).
  assert (E6 : optional read_body "requestBody" L = Some (op_body o)) by (subst L; finds; rewrite (read_optional read_body ser_body) by (intros; apply read_ser_body); reflexivity).
  assert (E7 : required read_responses "responses" L = Some (op_responses o)) by (subst L; finds; rewrite read_ser_responses; reflexivity).
  assert (E8 : default [] (sequence read_parameter) "parameters" L = Some (op_parameters o)) by (subst L; finds; rewrite (read_list (sequence read_parameter)) by (apply read_ser_parameters); reflexivity).
  assert (E9 : default [] (dictionary read_callback) "callbacks" L = Some (op_callbacks o)) by (subst L; finds; rewrite (read_list (dictionary read_callback)) by (apply (read_dictionary read_callback ser_callback); exact H); reflexivity).
  cbn [read_operation_with]. rewrite E0, E1, E2, E3, E4, E5, E6, E7, E8, E9. now destruct o.
Qed.

Lemma method_key k m : In (k, m) method_keys -> u k = method_name m.
Proof. cbn [In method_keys]. intuition (match goal with H : (_, _) = (_, _) |- _ => injection H as <- <- end; reflexivity). Qed.
Lemma lookup_method m (l : bmap http_method operation) :
  lookup (method_name m) (map ser_method l) = option_map ser_operation (bm_get m l).
Proof.
  induction l as [|[m' o] l IH]; [reflexivity|]. cbn [map ser_method fst snd lookup bm_get].
  destruct (str_eqb_spec (method_name m) (method_name m')) as [E|E].
  - apply method_name_inj in E. subst m'. now rewrite kcmp_refl.
  - rewrite IH. destruct (kcmp m m') eqn:Ek; auto. apply kcmp_eq in Ek. congruence.
Qed.
Lemma read_methods_ok (l : bmap http_method operation) (a b : entries) ms :
  bm_sorted l -> (forall m o, In (m, o) l -> read_operation (ser_operation o) = Some o) ->
  (forall k m, In (k, m) ms -> In (k, m) method_keys) ->
  (forall m, lookup (method_name m) a = None) -> (forall m, lookup (method_name m) b = None) ->
  read_methods read_callback ms (a ++ map ser_method l ++ b) =
  Some (flat_map (fun m => match bm_get m l with Some o => [(m, o)] | None => [] end) (map snd ms)).
Proof.
  intros Hs Hr. induction ms as [|[k m] ms IH]; intros Hm Ha Hb; [reflexivity|]. cbn [read_methods map flat_map snd].
  rewrite IH by (auto; intros; apply Hm; now right).
  rewrite find_lookup, (method_key k m) by (apply Hm; now left). rewrite !lookup_app, Ha, Hb, lookup_method.
  destruct (bm_get m l) as [o|] eqn:E; cbn [option_map app].
  - fold read_operation. rewrite (Hr m o) by now apply bm_get_In. reflexivity.
  - reflexivity.
Qed.
Lemma methods_listed (l : bmap http_method operation) : bm_sorted l ->
  flat_map (fun m => match bm_get m l with Some o => [(m, o)] | None => [] end) all_methods = l.
Proof.
  intros Hs. apply bm_ext.
  - apply sorted_ascending.
    assert (E : bm_keys (flat_map (fun m => match bm_get m l with Some o => [(m, o)] | None => [] end) all_methods) = filter (fun k => bm_mem k l) all_methods).
    { induction all_methods as [|m ms IH]; [reflexivity|]. cbn [flat_map filter]. unfold bm_keys in *. rewrite map_app, IH.
      unfold bm_mem. destruct (bm_get m l); reflexivity. }
    rewrite E. apply ascending_filter, methods_ascending.
  - exact Hs.
  - intros k. destruct (bm_get k l) as [o|] eqn:E.
    + apply bm_sorted_In_get.
      * apply sorted_ascending.
        assert (E' : bm_keys (flat_map (fun m => match bm_get m l with Some o => [(m, o)] | None => [] end) all_methods) = filter (fun k => bm_mem k l) all_methods).
        { induction all_methods as [|m ms IH]; [reflexivity|]. cbn [flat_map filter]. unfold bm_keys in *. rewrite map_app, IH.
          unfold bm_mem. destruct (bm_get m l); reflexivity. }
        rewrite E'. apply ascending_filter, methods_ascending.
      * apply in_flat_map. exists k. split; [destruct k; cbn; auto 10|]. rewrite E. now left.
    + apply bm_get_None. intros Hi. unfold bm_keys in Hi. apply in_map_iff in Hi. destruct Hi as ([k' o] & Ek & Hi). cbn in Ek. subst k'.
      apply in_flat_map in Hi. destruct Hi as (m & _ & Hi). destruct (bm_get m l) as [o'|] eqn:Em; [|destruct Hi].
      destruct Hi as [[= -> ->]|[]]. congruence.
Qed.
Lemma read_ser_path_item v : bm_sorted (pv_operations v) -> (forall m o, In (m, o) (pv_operations v) -> read_operation (ser_operation o) = Some o) ->
  read_path_item (ser_path_value v) = Some v.
Proof.
  intros Hs Hr. unfold ser_path_value, ser_path_value_with, read_path_item, read_path_item_with.
  fold ser_operation. change (map (fun e => (VStr (method_name (fst e)), ser_operation (snd e))) (pv_operations v)) with (map ser_method (pv_operations v)).
  rewrite (app_assoc (mem_opt "summary" _ _)). rewrite read_methods_ok; auto.
  2: intros m; rewrite lookup_app, !lookup_opt; destruct m; keys_goal; reflexivity.
  2: intros m; rewrite lookup_seq; destruct m; keys_goal; reflexivity.
  change (map snd method_keys) with all_methods. rewrite methods_listed by exact Hs.
  unfold optional, default. rewrite !find_lookup, !lookup_app, !lookup_opt, !lookup_seq, !lookup_methods by (apply not_method; cbn; auto). keys_goal.
  rewrite !read_texts. rewrite (read_list (sequence read_parameter)) by apply read_ser_parameters. now destruct v.
Qed.
Lemma read_ser_paths l : (forall p v, In (p, v) l -> plain_path p /\ read_path_item (ser_path_value v) = Some v) -> read_paths (ser_paths l) = Some l.
Proof.
  intros H. unfold read_paths, ser_paths, read_paths_with, ser_paths_with. fold read_path_item ser_path_value.
  change (map (fun e => (VStr (render_path (fst e)), ser_path_value (snd e))) l)
    with (map (fun e : path * path_value => (fun f => (VStr (fst f), ser_path_value (snd f))) ((fun e => (render_path (fst e), snd e)) e)) l).
  rewrite <- (map_map (fun e : path * path_value => (render_path (fst e), snd e)) (fun f => (VStr (fst f), ser_path_value (snd f)))).
  rewrite (read_dictionary read_path_item ser_path_value).
  - rewrite map_map. f_equal. rewrite <- (map_id l) at 2. apply map_ext_in. intros [p v] Hi. cbn [fst snd]. now rewrite parse_render by apply (H p v Hi).
  - intros k v Hi. apply in_map_iff in Hi. destruct Hi as ([p w] & E & Hi). injection E as <- <-. apply (H p w Hi).
Qed.

(** ** Callbacks, all paths, the document *)
Definition sorted_ops (l0 : list (path * path_value)) : Prop := forall p v, has_path l0 p v -> bm_sorted (pv_operations v).
Lemma sorted_nested l p v m o k c : sorted_ops l -> In (p, v) l -> In (m, o) (pv_operations v) -> In (k, c) (op_callbacks o) -> sorted_ops (cb_paths c).
Proof.
  intros Hp H1 H2 H3 p' v' (l' & Hw & Hi). apply (Hp p' v'). exists l'. split; [|exact Hi].
  apply (within_trans l (cb_paths c)); [|exact Hw]. eapply wi_callback; eauto using wi_self.
Qed.
Lemma read_paths_of l :
  (forall p v m o k c, In (p, v) l -> In (m, o) (pv_operations v) -> In (k, c) (op_callbacks o) ->
     sorted_ops (cb_paths c) -> cb_plain c -> read_callback (ser_callback c) = Some c) ->
  sorted_ops l -> plain_paths l -> read_paths (ser_paths l) = Some l.
Proof.
  intros IH Hs Hp. apply read_ser_paths. intros p v Hi. split.
  - apply (Hp p v). exists l. split; [constructor|exact Hi].
  - apply read_ser_path_item.
    + apply (Hs p v). exists l. split; [constructor|exact Hi].
    + intros m o Ho. apply read_ser_operation. intros k c Hk. apply (IH p v m o k); auto; [now apply (sorted_nested l p v m o k)|now apply (plain_nested l p v m o k)].
Qed.
Lemma read_ser_callback c : sorted_ops (cb_paths c) -> cb_plain c -> read_callback (ser_callback c) = Some c.
Proof.
  induction c as [c IH] using callback_ind'. destruct c as [l]. intros Hs Hp.
  pose proof (read_paths_of l) as E. cbn [cb_paths] in *. unfold read_paths, ser_paths in E.
  cbn [ser_callback]. unfold ser_paths_with in *. cbn [read_callback]. now rewrite E by (auto; intros; eapply IH; eauto).
Qed.
Lemma read_paths_ok l : sorted_ops l -> plain_paths l -> read_paths (ser_paths l) = Some l.
Proof. intros. apply read_paths_of; auto. intros. now apply read_ser_callback. Qed.
Lemma read_ser_info i : read_info (ser_info i) = Some i.
Proof. unfold read_info, ser_info. finds. now destruct i. Qed.
Lemma read_ser_tag e : read_tag (ser_tag e) = Some e.
Proof. unfold read_tag, ser_tag. finds. now destruct e as [n [d]]. Qed.
Lemma read_ser_server e : read_server (ser_server e) = Some e.
Proof. unfold read_server, ser_server. finds. now destruct e. Qed.
Lemma read_ser_document d : wf_opg d -> plain_paths (og_paths d) -> read_document (ser_opg d) = Some d.
Proof.
  intros (_ & [Hv _] & _) Hp. assert (Hs : sorted_ops (og_paths d)) by (intros p v H; apply (Hv p v H)).
  unfold ser_opg. match goal with |- read_document (VMap ?l) = _ => remember l as L eqn:EL end.
  assert (E0 : required text "openapi" L = Some (u "3.0.3")) by (subst L; finds; reflexivity).
  assert (E1 : required read_info "info" L = Some (og_info d)) by (subst L; finds; apply read_ser_info).
  assert (E2 : default [] (sequence read_tag) "tags" L = Some (og_tags d)).
  { subst L; finds. rewrite (read_list (sequence read_tag)); [reflexivity|]. cbn [sequence]. apply all_map. intros; apply read_ser_tag. }
  assert (E3 : default [] (sequence read_server) "servers" L = Some (og_servers d)).
  { subst L; finds. rewrite (read_list (sequence read_server)); [reflexivity|]. cbn [sequence]. apply all_map. intros; apply read_ser_server. }
  assert (E4 : default [] read_paths "paths" L = Some (og_paths d)).
  { subst L; finds. rewrite (read_list read_paths); [reflexivity|]. now apply read_paths_ok. }
  assert (E5 : required read_components "components" L = Some (og_components d)) by (subst L; finds; apply read_ser_components).
  cbn [read_document]. rewrite E0. keys_goal. rewrite E1, E2, E3, E4, E5. now destruct d.
Qed.
