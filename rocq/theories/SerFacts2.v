(** Facts about serialisation: it is injective. *)
From Verif Require Import SerSpec SchemaFacts SerFacts.
Local Open Scope string_scope. Local Open Scope list_scope.

(** ** Members *)
Lemma lookup_app k a b : lookup k (a ++ b) = match lookup k a with Some v => Some v | None => lookup k b end.
Proof.
  induction a as [|[kv v] a IH]; [reflexivity|]. cbn. destruct kv; auto. destruct (str_eqb k s); auto.
Qed.
Lemma lookup_mem k k' v : lookup k (mem k' v) = if str_eqb k (u k') then Some v else None.
Proof. reflexivity. Qed.
Lemma lookup_opt {A} k k' (f : A -> value) o : lookup k (mem_opt k' f o) = if str_eqb k (u k') then option_map f o else None.
Proof. destruct o; cbn [mem_opt option_map]; [apply lookup_mem|]. now destruct str_eqb. Qed.
Definition opt_true (b : bool) : option value := if b then Some (VBool true) else None.
Lemma lookup_true k k' b : lookup k (mem_true k' b) = if str_eqb k (u k') then opt_true b else None.
Proof. destruct b; cbn [mem_true opt_true]; [apply lookup_mem|]. now destruct str_eqb. Qed.
Definition opt_list {A} (f : list A -> value) (l : list A) : option value := match l with [] => None | _ => Some (f l) end.
Lemma lookup_seq {A} k k' (f : list A -> value) l : lookup k (mem_seq k' f l) = if str_eqb k (u k') then opt_list f l else None.
Proof. destruct l; cbn [mem_seq opt_list]; [now destruct str_eqb|apply lookup_mem]. Qed.
Lemma lookup_nil k : lookup k [] = None. Proof. reflexivity. Qed.
Lemma opt_id {A} (o : option A) : match o with Some v => Some v | None => None end = o.
Proof. now destruct o. Qed.

Lemma opt_true_inj b b' : opt_true b = opt_true b' -> b = b'.
Proof. now destruct b, b'. Qed.
Lemma opt_list_inj {A} (f : list A -> value) l l' : (forall a b, f a = f b -> a = b) -> opt_list f l = opt_list f l' -> l = l'.
Proof. intros Hf. destruct l, l'; cbn; try discriminate; [reflexivity|]. intros [= E]. now apply Hf. Qed.
Lemma option_map_inj {A} (f : A -> value) o o' : (forall a b, f a = f b -> a = b) -> option_map f o = option_map f o' -> o = o'.
Proof. intros Hf. destruct o, o'; cbn; try discriminate; [|reflexivity]. intros [= E]. f_equal. now apply Hf. Qed.
Lemma VMap_inj a b : VMap a = VMap b -> a = b. Proof. congruence. Qed.
Lemma VStr_inj a b : VStr a = VStr b -> a = b. Proof. congruence. Qed.
Lemma map_inj {A B} (f : A -> B) l l' : (forall a b, In a l -> In b l' -> f a = f b -> a = b) -> map f l = map f l' -> l = l'.
Proof.
  revert l'. induction l as [|a l IH]; intros [|b l'] Hf; cbn; try discriminate; [reflexivity|].
  intros [= E El]. f_equal; [apply Hf; cbn; auto|]. apply IH; [|exact El]. intros; apply Hf; cbn; auto.
Qed.
Lemma ser_strs_inj a b : ser_strs a = ser_strs b -> a = b.
Proof. intros [= E]. eapply map_inj; [|exact E]. intros ? ? _ _. apply VStr_inj. Qed.
Lemma ser_map_inj {V} (f : V -> value) m m' : (forall k v k' v', In (k, v) m -> In (k', v') m' -> f v = f v' -> v = v') -> ser_map f m = ser_map f m' -> m = m'.
Proof.
  intros Hf [= E]. eapply map_inj; [|exact E]. intros [k v] [k' v'] H H' [= -> Ev]. f_equal. eapply Hf; eauto.
Qed.

Ltac keys_in H :=
  repeat match type of H with
  | context [str_eqb (u ?a) (u ?b)] => let v := eval vm_compute in (str_eqb (u a) (u b)) in change (str_eqb (u a) (u b)) with v in H
  end; cbv iota in H; rewrite ?opt_id in H; cbv iota in H.
Ltac simpl_lookup H :=
  rewrite ?lookup_app, ?lookup_mem, ?lookup_opt, ?lookup_true, ?lookup_seq, ?lookup_nil in H; keys_in H.
Ltac look E k H :=
  pose proof (f_equal (lookup (u k)) E) as H; simpl_lookup H.

(** ** Schemas *)
Lemma ser_simple_inj s s' : ser_simple s = ser_simple s' -> s = s'.
Proof.
  intros E. unfold ser_simple in E. look E "format" H1. look E "example" H2. destruct s, s'; cbn in *.
  f_equal; (eapply option_map_inj; [apply VStr_inj|eassumption]).
Qed.
Lemma simple_lookup s k : lookup k (ser_simple s) =
  match (if str_eqb k (u "format") then option_map VStr (ms_format s) else None) with
  | Some v => Some v | None => if str_eqb k (u "example") then option_map VStr (ms_example s) else None end.
Proof. unfold ser_simple. now rewrite lookup_app, !lookup_opt. Qed.
Lemma string_lookup s k : lookup k (ser_string s) =
  match (if str_eqb k (u "enum") then option_map ser_strs (mst_variants s) else None) with
  | Some v => Some v | None => lookup k (ser_simple (mst_data s)) end.
Proof. unfold ser_string. now rewrite lookup_app, lookup_opt. Qed.

Lemma ser_desc_type td : lookup (u "type") (ser_desc td) =
  Some (VStr (match td with TdString _ => u "string" | TdNumber _ => u "number" | TdInteger _ => u "integer" | TdBoolean => u "boolean"
              | TdArray _ => u "array" | TdObject _ => u "object" end)).
Proof. destruct td; reflexivity. Qed.

Lemma ser_object_inj p a r p' a' r' :
  (forall k x k' x', In (k, x) p -> In (k', x') p' -> ser_ref x = ser_ref x' -> x = x') ->
  (forall x x', a = Some x -> a' = Some x' -> ser_ref x = ser_ref x' -> x = x') ->
  ser_object (MObject p a r) = ser_object (MObject p' a' r') -> MObject p a r = MObject p' a' r'.
Proof.
  intros Hp Ha E. cbn [ser_object] in E.
  pose proof (f_equal (lookup (u "properties")) E) as H1. pose proof (f_equal (lookup (u "additionalProperties")) E) as H2.
  pose proof (f_equal (lookup (u "required")) E) as H3.
  simpl_lookup H1. simpl_lookup H2. simpl_lookup H3.
  f_equal.
  - assert (Em : map (fun e => (VStr (fst e), ser_ref (snd e))) p = map (fun e => (VStr (fst e), ser_ref (snd e))) p').
    { destruct p as [|e p], p' as [|e' p']; cbn [opt_list] in H1; try discriminate; [reflexivity|]. congruence. }
    eapply map_inj; [|exact Em]. intros [k x] [k' x'] Hi Hi' [= -> Ev]. f_equal. eapply Hp; eauto.
  - destruct a, a'; cbn in H2; try discriminate; [|reflexivity]. injection H2 as H2. f_equal. now apply Ha.
  - eapply opt_list_inj; [apply ser_strs_inj|exact H3].
Qed.

Lemma ser_desc_no k td : In k [u "nullable"; u "description"; u "oneOf"; u "allOf"; u "anyOf"; u "$ref"] -> lookup k (ser_desc td) = None.
Proof.
  intros Hk. assert (Hs : forall s, lookup k (ser_simple s) = None).
  { intros s. rewrite simple_lookup. cbn [In] in Hk. intuition (subst; reflexivity). }
  destruct td as [s|s|s| |i|[p a r]]; cbn [ser_desc]; rewrite ?lookup_app, ?lookup_mem.
  - rewrite string_lookup, Hs. cbn [In] in Hk. intuition (subst; reflexivity).
  - rewrite Hs. cbn [In] in Hk. intuition (subst; reflexivity).
  - rewrite Hs. cbn [In] in Hk. intuition (subst; reflexivity).
  - cbn [In] in Hk. intuition (subst; reflexivity).
  - cbn [In] in Hk. intuition (subst; reflexivity).
  - cbn [ser_object]. rewrite !lookup_app, !lookup_opt, !lookup_seq.
    cbn [In] in Hk. intuition (subst; reflexivity).
Qed.
Definition data_key (d : model_data) : str :=
  match d with Single _ => u "type" | OneOf _ => u "oneOf" | AllOf _ => u "allOf" | AnyOf _ => u "anyOf" end.
Lemma lookup_data k d : In k [u "description"; u "$ref"] -> lookup k (ser_data d) = None.
Proof.
  intros Hk. destruct d as [[n td]|l|l|l]; cbn [ser_data ser_type]; rewrite ?lookup_app, ?lookup_mem, ?lookup_true.
  - rewrite ser_desc_no by (cbn in Hk |- *; intuition). cbn [In] in Hk. intuition (subst; reflexivity).
  - cbn [In] in Hk. intuition (subst; reflexivity).
  - cbn [In] in Hk. intuition (subst; reflexivity).
  - cbn [In] in Hk. intuition (subst; reflexivity).
Qed.
Lemma lookup_data_key d : lookup (data_key d) (ser_data d) <> None.
Proof.
  destruct d as [[n td]|l|l|l]; try discriminate. cbn [ser_data ser_type data_key]. rewrite lookup_app, ser_desc_type.
  now destruct lookup.
Qed.
Lemma lookup_data_other k d : In k [u "type"; u "oneOf"; u "allOf"; u "anyOf"] -> k <> data_key d -> lookup k (ser_data d) = None.
Proof.
  intros Hk Hn. destruct d as [[n td]|l|l|l]; cbn [ser_data ser_type data_key] in *.
  - rewrite lookup_app, lookup_true. cbn [In] in Hk. destruct Hk as [<-|Hk]; [now destruct Hn|].
    rewrite ser_desc_no by (cbn; intuition). intuition (subst; reflexivity).
  - rewrite lookup_mem. apply str_eqb_neq in Hn. now rewrite Hn.
  - rewrite lookup_mem. apply str_eqb_neq in Hn. now rewrite Hn.
  - rewrite lookup_mem. apply str_eqb_neq in Hn. now rewrite Hn.
Qed.

Lemma data_key_eq d d' : ser_data d = ser_data d' -> data_key d = data_key d'.
Proof.
  intros E. destruct (str_eqb_spec (data_key d) (data_key d')) as [|Hn]; [assumption|exfalso].
  apply (lookup_data_key d). rewrite E. apply lookup_data_other; [|exact Hn].
  destruct d; cbn; auto.
Qed.

Definition ref_inj (x : model_ref) : Prop := forall x', ser_ref x = ser_ref x' -> x = x'.
Definition model_inj (m : model) : Prop := forall m', ser_model m = ser_model m' -> m = m'.

Lemma model_nonempty m : ser_model m <> VMap [].
Proof.
  destruct m as [d data]. cbn [ser_model]. intros [= E]. apply app_eq_nil in E. destruct E as [_ E].
  apply (lookup_data_key data). now rewrite E.
Qed.
Lemma model_no_ref m l : ser_model m = VMap l -> lookup (u "$ref") l = None.
Proof.
  destruct m as [d data]. cbn [ser_model]. intros [= <-]. rewrite lookup_app, lookup_opt, lookup_data by (cbn; auto).
  reflexivity.
Qed.
Lemma ref_inj_of_model m : model_inj m -> ref_inj (Inline m).
Proof.
  intros H [l|m'|]; cbn [ser_ref]; intros E.
  - apply model_no_ref in E. discriminate.
  - f_equal. now apply H.
  - now apply model_nonempty in E.
Qed.
Lemma ref_inj_other x : match x with Inline _ => False | _ => True end -> ref_inj x.
Proof.
  destruct x as [l| |]; intros Hx [l'|m'|]; cbn [ser_ref]; intros E; try contradiction; try discriminate; try reflexivity.
  - injection E as E. f_equal. exact E.
  - symmetry in E. apply model_no_ref in E. discriminate.
  - symmetry in E. now apply model_nonempty in E.
Qed.
Lemma ser_model_inj m : model_inj m.
Proof.
  induction m as [m IH] using model_ind'. intros m' E.
  assert (Hc : forall x, child x m -> ref_inj x).
  { intros [l|m1|] H; [now apply ref_inj_other|now apply ref_inj_of_model, IH|now apply ref_inj_other]. }
  clear IH. destruct m as [d data], m' as [d' data']. cbn [ser_model] in E. injection E as E.
  assert (Hd : d = d').
  { pose proof (f_equal (lookup (u "description")) E) as H. rewrite !lookup_app, !lookup_opt, !lookup_data in H by (cbn; auto).
    keys_in H. eapply option_map_inj; [apply VStr_inj|exact H]. }
  subst d'. apply app_inv_head in E. f_equal. pose proof (data_key_eq _ _ E) as Ek.
  destruct data as [[n td]|l|l|l], data' as [[n' td']|l'|l'|l']; try discriminate; clear Ek.
  2-4: cbn [ser_data] in E; injection E as E; f_equal; eapply map_inj; [|exact E];
       intros a b Ha _ Ee; apply (Hc a); [now constructor|exact Ee].
  f_equal. cbn [ser_data ser_type] in E.
  assert (Hn : n = n').
  { pose proof (f_equal (lookup (u "nullable")) E) as H. rewrite !lookup_app, !lookup_true, !ser_desc_no in H by (cbn; auto).
    keys_in H. now apply opt_true_inj. }
  subst n'. apply app_inv_head in E. f_equal.
  pose proof (f_equal (lookup (u "type")) E) as Et. rewrite !ser_desc_type in Et.
  destruct td as [s|s|s| |i|[p a r]], td' as [s'|s'|s'| |i'|[p' a' r']]; try discriminate Et; clear Et; cbn [ser_desc] in E;
    try (apply app_inv_head in E).
  - f_equal. unfold ser_string in E. pose proof (f_equal (lookup (u "enum")) E) as H1.
    rewrite !lookup_app, !lookup_opt, !simple_lookup in H1. keys_in H1.
    apply option_map_inj in H1; [|apply ser_strs_inj]. destruct s as [v s], s' as [v' s']. cbn in *. subst v'.
    apply app_inv_head in E. f_equal. now apply ser_simple_inj.
  - f_equal. now apply ser_simple_inj.
  - f_equal. now apply ser_simple_inj.
  - reflexivity.
  - injection E as E. f_equal. apply Hc; [constructor|exact E].
  - f_equal. apply ser_object_inj; [| |exact E].
    + intros k x k' x' Hi _ Ee. apply (Hc x); [now apply ch_prop with k|exact Ee].
    + intros x x' -> _ Ee. apply (Hc x); [constructor|exact Ee].
Qed.
Lemma ser_ref_inj x x' : ser_ref x = ser_ref x' -> x = x'.
Proof.
  destruct x as [l|m|]; [apply ref_inj_other; exact I|apply ref_inj_of_model, ser_model_inj|apply ref_inj_other; exact I].
Qed.

(** ** The rest *)
Lemma ser_in_inj a b : ser_in a = ser_in b -> a = b.
Proof. now destruct a, b. Qed.
Lemma ser_scheme_inj s s' : ser_scheme s = ser_scheme s' -> s = s'.
Proof.
  destruct s as [[d|f d]|[i n d]], s' as [[d'|f' d']|[i' n' d']]; intros E; cbn [ser_scheme ak_in ak_name ak_description] in E;
    try discriminate E; apply VMap_inj in E.
  - look E "description" H. do 2 f_equal. eapply option_map_inj; [apply VStr_inj|exact H].
  - do 2 f_equal.
    + look E "bearerFormat" H. eapply option_map_inj; [apply VStr_inj|exact H].
    + look E "description" H. eapply option_map_inj; [apply VStr_inj|exact H].
  - do 2 f_equal.
    + look E "in" H. apply ser_in_inj. congruence.
    + look E "name" H. congruence.
    + look E "description" H. eapply option_map_inj; [apply VStr_inj|exact H].
Qed.
Lemma ser_content_inj a b : ser_content a = ser_content b -> a = b.
Proof. intros [= E]. now apply ser_ref_inj. Qed.
Lemma ser_body_inj a b : ser_body a = ser_body b -> a = b.
Proof.
  destruct a as [d r s], b as [d' r' s']. unfold ser_body. cbn [rb_description rb_required rb_schema]. intros E. apply VMap_inj in E.
  look E "required" H1. look E "description" H2. look E "content" H3.
  apply opt_true_inj in H1. subst r'. injection H2 as H2. injection H3 as H3. apply ser_ref_inj in H3. subst s'.
  f_equal. destruct d, d'; congruence.
Qed.
Lemma ser_response_inj a b : ser_response a = ser_response b -> a = b.
Proof.
  destruct a as [d s], b as [d' s']. unfold ser_response. cbn [rs_description rs_schema]. intros E2. apply VMap_inj in E2. look E2 "description" H0. f_equal; [congruence|].
  look E2 "content" H. eapply option_map_inj; [apply ser_content_inj|exact H].
Qed.
Lemma ser_parameter_inj a b : ser_parameter a = ser_parameter b -> a = b.
Proof.
  destruct a as [n [d i r p s]], b as [n' [d' i' r' p' s']].
  cbn [ser_parameter pr_description pr_in pr_required pr_deprecated pr_schema]. intros E. apply VMap_inj in E. look E "name" E0.
  look E "description" H1. look E "in" H2. look E "required" H3. look E "deprecated" H4. look E "schema" H5.
  f_equal; [congruence|]. f_equal.
  - eapply option_map_inj; [apply VStr_inj|exact H1].
  - apply ser_in_inj. congruence.
  - now apply opt_true_inj.
  - now apply opt_true_inj.
  - eapply option_map_inj; [apply ser_ref_inj|exact H5].
Qed.
Lemma ser_parameters_inj a b : ser_parameters a = ser_parameters b -> a = b.
Proof. intros [= E]. eapply map_inj; [|exact E]. intros ? ? _ _. apply ser_parameter_inj. Qed.
Lemma ser_security_inj (a b : list (bmap str (list str))) :
  VSeq (map (ser_map ser_strs) a) = VSeq (map (ser_map ser_strs) b) -> a = b.
Proof.
  intros [= E]. eapply map_inj; [|exact E]. intros x y _ _. apply ser_map_inj. intros ? ? ? ? _ _. apply ser_strs_inj.
Qed.
Lemma ser_operation_inj o o' :
  (forall k c k' c', In (k, c) (op_callbacks o) -> In (k', c') (op_callbacks o') -> ser_callback c = ser_callback c' -> c = c') ->
  ser_operation o = ser_operation o' -> o = o'.
Proof.
  destruct o as [t su id de dp se bo re pa cb], o' as [t' su' id' de' dp' se' bo' re' pa' cb'].
  unfold ser_operation, ser_operation_with.
  cbn [op_tags op_summary op_id op_description op_deprecated op_security op_body op_responses op_parameters op_callbacks].
  intros Hc E. apply VMap_inj in E.
  assert (L : forall k, lookup (u k) _ = lookup (u k) _) by (intros k; exact (f_equal (lookup (u k)) E)). clear E.
  f_equal.
  - specialize (L "tags"). simpl_lookup L.
    eapply opt_list_inj; [apply ser_strs_inj|exact L].
  - specialize (L "summary"). simpl_lookup L.
    eapply option_map_inj; [apply VStr_inj|exact L].
  - specialize (L "operationId"). simpl_lookup L.
    eapply option_map_inj; [apply VStr_inj|exact L].
  - specialize (L "description"). simpl_lookup L.
    eapply option_map_inj; [apply VStr_inj|exact L].
  - specialize (L "deprecated"). simpl_lookup L.
    now apply opt_true_inj.
  - specialize (L "security"). simpl_lookup L.
    eapply opt_list_inj; [|exact L]. apply ser_security_inj.
  - specialize (L "requestBody"). simpl_lookup L.
    eapply option_map_inj; [apply ser_body_inj|exact L].
  - specialize (L "responses"). simpl_lookup L. injection L as L.
    eapply map_inj; [|exact L]. intros [k r] [k' r'] _ _ [= -> Er]. f_equal. apply ser_response_inj. unfold ser_response. congruence.
  - specialize (L "parameters"). simpl_lookup L.
    eapply opt_list_inj; [apply ser_parameters_inj|exact L].
  - specialize (L "callbacks"). simpl_lookup L.
    assert (Em : map (fun e => (VStr (fst e), ser_callback (snd e))) cb = map (fun e => (VStr (fst e), ser_callback (snd e))) cb').
    { destruct cb, cb'; cbn [opt_list] in L; try discriminate; [reflexivity|]. congruence. }
    eapply map_inj; [|exact Em]. intros [k c] [k' c'] Hi Hi' [= -> Ec]. f_equal. eapply Hc; eauto.
Qed.

Lemma method_name_inj a b : method_name a = method_name b -> a = b.
Proof. destruct a, b; vm_compute; congruence. Qed.
Definition ser_method (e : http_method * operation) : value * value := (VStr (method_name (fst e)), ser_operation (snd e)).
Lemma lookup_methods k (l : bmap http_method operation) : (forall m, k <> method_name m) -> lookup k (map ser_method l) = None.
Proof.
  intros Hk. induction l as [|[m o] l IH]; [reflexivity|]. cbn [map ser_method lookup fst].
  assert (Hn := Hk m). apply str_eqb_neq in Hn. now rewrite Hn.
Qed.
Lemma not_method k : In k [u "summary"; u "description"; u "parameters"] -> forall m, k <> method_name m.
Proof. cbn [In]. intros H m ->. destruct m; vm_compute in H; intuition discriminate. Qed.
Lemma ser_path_value_inj v v' :
  (forall m o m' o', In (m, o) (pv_operations v) -> In (m', o') (pv_operations v') -> ser_operation o = ser_operation o' -> o = o') ->
  ser_path_value v = ser_path_value v' -> v = v'.
Proof.
  destruct v as [su de ops pa], v' as [su' de' ops' pa']. unfold ser_path_value, ser_path_value_with.
  cbn [pv_summary pv_description pv_operations pv_parameters]. fold ser_operation. fold ser_method. intros Ho E. apply VMap_inj in E.
  change (map (fun e => (VStr (method_name (fst e)), ser_operation (snd e))) ops) with (map ser_method ops) in E.
  change (map (fun e => (VStr (method_name (fst e)), ser_operation (snd e))) ops') with (map ser_method ops') in E.
  assert (Hs : su = su').
  { look E "summary" H. rewrite !lookup_methods in H by (apply not_method; cbn; auto). keys_in H.
    eapply option_map_inj; [apply VStr_inj|exact H]. }
  assert (Hd : de = de').
  { look E "description" H. rewrite !lookup_methods in H by (apply not_method; cbn; auto). keys_in H.
    eapply option_map_inj; [apply VStr_inj|exact H]. }
  assert (Hp : pa = pa').
  { look E "parameters" H. rewrite !lookup_methods in H by (apply not_method; cbn; auto). keys_in H.
    eapply opt_list_inj; [apply ser_parameters_inj|exact H]. }
  subst su' de' pa'. apply app_inv_head, app_inv_head, app_inv_tail in E. f_equal.
  eapply map_inj; [|exact E]. intros [m o] [m' o'] H1 H2 [= Em Eo]. apply method_name_inj in Em. subst m'.
  f_equal. eapply Ho; [exact H1|exact H2|]. exact (f_equal VMap Eo).
Qed.

Definition cb_plain (c : callback) : Prop := plain_paths (cb_paths c).
Lemma within_trans l0 l1 l2 : within l0 l1 -> within l1 l2 -> within l0 l2.
Proof. intros H1 H2. induction H2; [exact H1|]. econstructor; eauto. Qed.
Lemma plain_nested l p v m o k c : plain_paths l -> In (p, v) l -> In (m, o) (pv_operations v) -> In (k, c) (op_callbacks o) -> cb_plain c.
Proof.
  intros Hp H1 H2 H3 p' v' (l' & Hw & Hi). apply (Hp p' v'). exists l'. split; [|exact Hi].
  apply (within_trans l (cb_paths c)); [|exact Hw]. eapply wi_callback; eauto using wi_self.
Qed.
Lemma ser_paths_inj l l' :
  (forall p v m o k c, In (p, v) l -> In (m, o) (pv_operations v) -> In (k, c) (op_callbacks o) -> forall c', cb_plain c -> cb_plain c' -> ser_callback c = ser_callback c' -> c = c') ->
  plain_paths l -> plain_paths l' -> ser_paths l = ser_paths l' -> l = l'.
Proof.
  intros Hc Hp Hp' E. apply VMap_inj in E. eapply map_inj; [|exact E]. intros [p v] [p' v'] H H' Ee.
  apply pair_equal_spec in Ee. cbn [fst snd] in Ee. destruct Ee as [Er Ev]. apply VStr_inj in Er.
  f_equal.
  - apply render_inj; [apply (Hp p v)|apply (Hp' p' v')|exact Er]; eexists; split; eauto using wi_self.
  - apply ser_path_value_inj; [|exact Ev]. intros m o m' o' Ho Ho' Eo. apply ser_operation_inj; [|exact Eo].
    intros k c k' c' Hk Hk' Ec. apply (Hc p v m o k c); auto; [apply (plain_nested l p v m o k)|apply (plain_nested l' p' v' m' o' k')]; auto.
Qed.
Lemma ser_callback_inj c : forall c', cb_plain c -> cb_plain c' -> ser_callback c = ser_callback c' -> c = c'.
Proof.
  induction c as [c IH] using callback_ind'. intros c' Hp Hp' E. destruct c as [l], c' as [l']. f_equal.
  apply ser_paths_inj; [|exact Hp|exact Hp'|exact E]. intros. eapply IH; eauto.
Qed.
Lemma ser_paths_inj' l l' : plain_paths l -> plain_paths l' -> ser_paths l = ser_paths l' -> l = l'.
Proof. intros. apply ser_paths_inj; auto. intros. now apply ser_callback_inj. Qed.

Lemma ser_components_inj c c' : ser_components c = ser_components c' -> c = c'.
Proof.
  destruct c as [s x], c' as [s' x']. unfold ser_components. cbn [cx_schemas cx_security]. intros E. apply VMap_inj in E.
  look E "schemas" H1. look E "securitySchemes" H2. f_equal.
  - eapply opt_list_inj; [|exact H1]. intros a b. apply ser_map_inj. intros ? ? ? ? _ _. apply ser_model_inj.
  - eapply opt_list_inj; [|exact H2]. intros a b. apply ser_map_inj. intros ? ? ? ? _ _. apply ser_scheme_inj.
Qed.
Lemma ser_info_inj i i' : ser_info i = ser_info i' -> i = i'.
Proof.
  destruct i as [t d v], i' as [t' d' v']. unfold ser_info. cbn [in_title in_description in_version]. intros E. apply VMap_inj in E. look E "title" E0.
  look E "description" H1. look E "version" H2. f_equal; [congruence| |congruence].
  eapply option_map_inj; [apply VStr_inj|exact H1].
Qed.
Lemma ser_server_inj a b : ser_server a = ser_server b -> a = b.
Proof.
  destruct a as [a d], b as [b d']. unfold ser_server. cbn [sv_url sv_description]. intros E. apply VMap_inj in E. look E "url" E0. look E "description" H1.
  f_equal; [congruence|]. eapply option_map_inj; [apply VStr_inj|exact H1].
Qed.
Lemma ser_tag_inj a b : ser_tag a = ser_tag b -> a = b.
Proof.
  destruct a as [a [d]], b as [b [d']]. unfold ser_tag. cbn [fst snd tg_description]. intros E. apply VMap_inj in E. look E "name" E0. look E "description" H1.
  f_equal; [congruence|]. f_equal. eapply option_map_inj; [apply VStr_inj|exact H1].
Qed.
Lemma ser_opg_inj d d' : plain_paths (og_paths d) -> plain_paths (og_paths d') -> ser_opg d = ser_opg d' -> d = d'.
Proof.
  destruct d as [i t s p c], d' as [i' t' s' p' c']. unfold ser_opg. cbn [og_info og_tags og_servers og_paths og_components].
  intros Hp Hp' E. apply VMap_inj in E.
  assert (L : forall k, lookup (u k) _ = lookup (u k) _) by (intros k; exact (f_equal (lookup (u k)) E)). clear E.
  f_equal.
  - specialize (L "info"). simpl_lookup L. apply ser_info_inj. congruence.
  - specialize (L "tags"). simpl_lookup L. eapply opt_list_inj; [|exact L]. intros a b [= E].
    eapply map_inj; [|exact E]. intros ? ? _ _. apply ser_tag_inj.
  - specialize (L "servers"). simpl_lookup L. eapply opt_list_inj; [|exact L]. intros a b [= E].
    eapply map_inj; [|exact E]. intros ? ? _ _. apply ser_server_inj.
  - specialize (L "paths"). simpl_lookup L. destruct p, p'; cbn [opt_list] in L; try discriminate; [reflexivity|].
    apply ser_paths_inj'; auto. congruence.
  - specialize (L "components"). simpl_lookup L. apply ser_components_inj. congruence.
Qed.
