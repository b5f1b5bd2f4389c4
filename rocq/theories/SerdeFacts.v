(** What the [Serialize] impls tell the serializer is what Ser.v says (C76). *)
From Coq Require Import List NArith Bool.
From Verif Require Import Str Case Schema Gen Doc Ser Serde SerdeSpec SerSpec SerFacts.
Import ListNotations.
Local Open Scope string_scope. Local Open Scope list_scope.

Definition entry_value (e : told * told) : Ser.value * Ser.value := (to_value (fst e), to_value (snd e)).
Definition entry_ok (e : told * told) : Prop := json_key (fst e) /\ json_writable (snd e).

(** is told, as [v] *)
Definition tells (o : option told) (v : Ser.value) : Prop := exists t, o = Some t /\ to_value t = v /\ json_writable t.
(** the entries told, if it is a mapping or a struct *)
Definition obj (t : told) : option (list (told * told)) :=
  match t with ToMap l => Some l | ToStruct l => Some (map (fun e => (ToStr (fst e), snd e)) l) | _ => None end.
Definition tells_obj (o : option told) (es : entries) : Prop :=
  exists t l, o = Some t /\ obj t = Some l /\ map entry_value l = es /\ Forall entry_ok l.

Lemma obj_tells o es : tells_obj o es -> tells o (VMap es).
Proof.
  intros (t & l & -> & Ho & <- & Hk). exists t. split; auto. destruct t; try discriminate; cbn [obj] in Ho; injection Ho as <-.
  - split; [reflexivity|]. constructor. intros k x Hi. rewrite Forall_forall in Hk. exact (Hk _ Hi).
  - split; [cbn [to_value]; now rewrite map_map|]. constructor. intros n x Hi. rewrite Forall_forall in Hk.
    refine (proj2 (Hk (ToStr n, x) _)). apply in_map_iff. exists (n, x). auto.
Qed.
Lemma obj_flat o es : tells_obj o es -> exists t l, o = Some t /\ flat t = Some l /\ map entry_value l = es /\ Forall entry_ok l.
Proof. intros (t & l & -> & Ho & He). exists t, l. split; auto. destruct t; try discriminate; auto. Qed.
Lemma obj_tagged o es tag n : tells_obj o es -> tells_obj (andthen o (tagged tag n)) ((VStr tag, VStr n) :: es).
Proof.
  intros (t & l & -> & Ho & <- & Hk). destruct t; try discriminate; cbn [obj] in Ho; injection Ho as <-; cbn [andthen tagged];
    eexists _, _; (split; [reflexivity|split; [reflexivity|split; [reflexivity|]]]); constructor; auto; split; constructor.
Qed.

(** ** Structs *)
Inductive field_tells (rule : rename_rule) : sfield -> entries -> Prop :=
| ft_skipped f : skipped f = true -> field_tells rule f []
| ft_flat f es : skipped f = false -> flattened f = true -> tells_obj (sf_told f) es -> field_tells rule f es
| ft_field f n v : skipped f = false -> flattened f = false -> field_name rule f = Some n -> tells (sf_told f) v ->
    field_tells rule f [(VStr n, v)].

Lemma members_entries l : map (fun e : str * told => (ToStr (fst e), snd e)) (concat l) = concat (map (map (fun e => (ToStr (fst e), snd e))) l).
Proof. now rewrite concat_map. Qed.

Lemma fields_entries rule fs ess : Forall2 (field_tells rule) fs ess ->
  exists l, sequence (map (field_entries rule) fs) = Some l /\ map entry_value (concat l) = concat ess /\ Forall entry_ok (concat l).
Proof.
  induction 1 as [|f es fs ess Hf Hr (l & Hl & He & Hk)].
  - exists []. repeat split; auto. constructor.
  - cbn [map sequence concat]. rewrite Hl.
    enough (exists x, field_entries rule f = Some x /\ map entry_value x = es /\ Forall entry_ok x) as (x & -> & Hx & Hkx).
    { cbn [andthen]. exists (x :: l). split; [reflexivity|]. cbn [concat]. rewrite map_app, Hx, He. split; auto. apply Forall_app. auto. }
    unfold field_entries. destruct Hf as [f Hs|f es Hs Hfl Ht|f n v Hs Hfl Hn (t & Et & Hv & Hw)]; rewrite Hs.
    + exists []. auto.
    + rewrite Hfl. apply obj_flat in Ht as (t & x & -> & Hx & He' & Hk'). exists x. auto.
    + rewrite Hfl, Et, Hn. cbn [andthen]. exists [(ToStr n, t)]. split; auto. split; [cbn; unfold entry_value; cbn; now rewrite Hv|].
      repeat constructor. exact Hw.
Qed.
Lemma fields_members rule fs ess : existsb flattened fs = false -> Forall2 (field_tells rule) fs ess ->
  exists l, sequence (map (field_members rule) fs) = Some l /\
    map entry_value (map (fun e => (ToStr (fst e), snd e)) (concat l)) = concat ess /\
    Forall entry_ok (map (fun e => (ToStr (fst e), snd e)) (concat l)).
Proof.
  intros Hno H. revert Hno. induction H as [|f es fs ess Hf Hr IH]; intros Hno.
  - exists []. repeat split; auto. constructor.
  - cbn [existsb] in Hno. apply orb_false_iff in Hno as [Hn0 Hno]. destruct (IH Hno) as (l & Hl & He & Hk). clear IH.
    cbn [map sequence concat]. rewrite Hl.
    enough (exists x, field_members rule f = Some x /\ map entry_value (map (fun e => (ToStr (fst e), snd e)) x) = es /\
              Forall entry_ok (map (fun e => (ToStr (fst e), snd e)) x)) as (x & -> & Hx & Hkx).
    { cbn [andthen]. exists (x :: l). split; [reflexivity|]. cbn [concat]. rewrite !map_app, Hx, He. split; auto. apply Forall_app. auto. }
    unfold field_members. destruct Hf as [f Hs|f es Hs Hfl Ht|f n v Hs Hfl Hn (t & Et & Hv & Hw)]; rewrite Hs.
    + exists []. repeat split; auto. constructor.
    + congruence.
    + rewrite Et, Hn. cbn [andthen]. exists [(n, t)]. split; auto. split; [cbn; unfold entry_value; cbn; now rewrite Hv|].
      repeat constructor. exact Hw.
Qed.
Lemma struct_tells rule fs ess : Forall2 (field_tells rule) fs ess -> tells_obj (derive_struct rule fs) (concat ess).
Proof.
  intros H. unfold derive_struct. destruct (existsb flattened fs) eqn:Ef.
  - destruct (fields_entries _ _ _ H) as (l & -> & He & Hk). cbn [option_map]. eexists _, _. split; [reflexivity|]. split; [reflexivity|]. auto.
  - destruct (fields_members _ _ _ Ef H) as (l & -> & He & Hk). cbn [option_map]. eexists _, _. split; [reflexivity|]. split; [reflexivity|]. auto.
Qed.
Lemma struct_tells' rule fs ess es : Forall2 (field_tells rule) fs ess -> concat ess = es -> tells_obj (derive_struct rule fs) es.
Proof. intros H <-. now apply struct_tells. Qed.

(** ** std's types *)
Lemma str_tells s : tells (tell_str s) (VStr s).
Proof. exists (ToStr s). repeat split. constructor. Qed.
Lemma bool_tells b : tells (tell_bool b) (VBool b).
Proof. exists (ToBool b). repeat split. constructor. Qed.
Lemma some_tells {A} (f : A -> option told) a v : tells (f a) v -> tells (tell_option f (Some a)) v.
Proof. intros (t & E & Hv & Hw). exists (ToSome t). cbn. rewrite E. split; auto. split; auto. now constructor. Qed.
Lemma none_tells {A} (f : A -> option told) : tells (tell_option f None) VNull.
Proof. exists ToNone. repeat split. constructor. Qed.
Lemma seq_tells {A} (f : A -> option told) (g : A -> Ser.value) l : (forall a, In a l -> tells (f a) (g a)) ->
  tells (option_map ToSeq (sequence (map f l))) (VSeq (map g l)).
Proof.
  intros H. enough (exists ts, sequence (map f l) = Some ts /\ map to_value ts = map g l /\ Forall json_writable ts) as (ts & -> & Hv & Hw).
  { exists (ToSeq ts). split; auto. cbn [to_value]. rewrite Hv. split; auto. constructor. now apply Forall_forall. }
  induction l as [|a l IH].
  - exists []. repeat split. constructor.
  - destruct IH as (ts & E & Hv & Hw); [intros; apply H; now right|]. destruct (H a (or_introl eq_refl)) as (t & Et & Htv & Htw).
    exists (t :: ts). cbn [map sequence]. rewrite Et, E. cbn [andthen]. split; auto. split; [cbn; congruence|]. constructor; auto.
Qed.
Lemma entries_tell {K V} (fk : K -> option told) (fv : V -> option told) (gk : K -> Ser.value) (gv : V -> Ser.value) m :
  (forall k v, In (k, v) m -> (exists t, fk k = Some t /\ json_key t /\ to_value t = gk k) /\ tells (fv v) (gv v)) ->
  tells_obj (option_map ToMap (sequence (map (tell_entry fk fv) m))) (map (fun e => (gk (fst e), gv (snd e))) m).
Proof.
  intros H. enough (exists ts, sequence (map (tell_entry fk fv) m) = Some ts /\
    map entry_value ts = map (fun e => (gk (fst e), gv (snd e))) m /\ Forall entry_ok ts) as (ts & -> & Hv & Hw).
  { cbn [option_map]. eexists _, _. split; [reflexivity|]. split; [reflexivity|]. auto. }
  induction m as [|[k v] m IH].
  - exists []. repeat split. constructor.
  - destruct IH as (ts & E & Hv & Hw); [intros; apply H; now right|].
    destruct (H k v (or_introl eq_refl)) as [(tk & Ek & Hkey & Hkv) (t & Et & Htv & Htw)].
    exists ((tk, t) :: ts). cbn [map sequence]. unfold tell_entry at 1. cbn [fst snd]. rewrite Ek, Et, E. cbn [andthen]. split; auto.
    split; [cbn; unfold entry_value at 1; cbn; congruence|]. constructor; auto. split; auto.
Qed.
Lemma str_key k : exists t, tell_str k = Some t /\ json_key t /\ to_value t = VStr k.
Proof. exists (ToStr k). repeat split. constructor. Qed.
Lemma map_tells {V} (fv : V -> option told) (gv : V -> Ser.value) m : (forall k v, In (k, v) m -> tells (fv v) (gv v)) ->
  tells (tell_map tell_str fv m) (VMap (map (fun e => (VStr (fst e), gv (snd e))) m)).
Proof.
  intros H. apply obj_tells. apply (entries_tell tell_str fv VStr gv). intros k v Hi. split; [apply str_key|eauto].
Qed.
Lemma strs_tell l : tells (tell_vec tell_str l) (ser_strs l).
Proof. apply seq_tells. intros. apply str_tells. Qed.

(** ** Fields, by their kind *)
Lemma f_always rule i a t n v : existsb (fun a => match a with SkipIf b => b | _ => false end) a = false -> existsb is_flatten a = false ->
  field_name rule (Fld i a t) = Some n -> tells t v -> field_tells rule (Fld i a t) [(VStr n, v)].
Proof. intros. now apply ft_field. Qed.
Lemma f_skip rule i a a' t : existsb (fun a => match a with SkipIf b => b | _ => false end) (a' ++ SkipIf true :: a) = true ->
  field_tells rule (Fld i (a' ++ SkipIf true :: a) t) [].
Proof. intros. now apply ft_skipped. Qed.

Ltac one := first [apply bool_tells|apply str_tells|apply strs_tell|apply some_tells; first [apply str_tells|apply strs_tell|idtac]|idtac].
Lemma f_opt {A} rule i a (f : A -> option told) (g : A -> Ser.value) (o : option A) (k : string) :
  (forall b, existsb (fun a => match a with SkipIf b => b | _ => false end) (a ++ [SkipIf b]) = b) ->
  (forall b, existsb is_flatten (a ++ [SkipIf b]) = false) ->
  field_name rule (Fld i (a ++ [SkipIf (is_none o)]) None) = Some (u k) ->
  (forall x, o = Some x -> tells (f x) (g x)) ->
  field_tells rule (Fld i (a ++ [SkipIf (is_none o)]) (tell_option f o)) (mem_opt k g o).
Proof.
  intros Hs Hf Hn Hx. destruct o as [x|]; cbn [is_none mem_opt].
  - apply ft_field; auto; [apply Hs|apply Hf|]. apply some_tells. now apply Hx.
  - apply ft_skipped. apply Hs.
Qed.
Lemma f_true rule i (b : bool) (k : string) : apply_to_field rule (u i) = Some (u k) ->
  field_tells rule (Fld i [SkipIf (is_false b)] (tell_bool b)) (mem_true k b).
Proof.
  intros Hn. destruct b; cbn [is_false negb mem_true].
  - apply ft_field; auto. apply bool_tells.
  - now apply ft_skipped.
Qed.
Lemma f_seq {A} rule i (t : option told) (g : list A -> Ser.value) (l : list A) (k : string) : apply_to_field rule (u i) = Some (u k) ->
  tells t (g l) -> field_tells rule (Fld i [SkipIf (is_empty l)] t) (mem_seq k g l).
Proof.
  intros Hn Ht. destruct l as [|x l]; cbn [is_empty mem_seq].
  - now apply ft_skipped.
  - now apply ft_field.
Qed.
Lemma f_mem rule i t v (k : string) : apply_to_field rule (u i) = Some (u k) -> tells t v -> field_tells rule (Fld i [] t) (mem k v).
Proof. intros. now apply ft_field. Qed.
Lemma f_renamed rule i t v (k : string) : tells t v -> field_tells rule (Fld i [Rename k] t) (mem k v).
Proof. intros. now apply ft_field. Qed.
Lemma f_flat rule i t es : tells_obj t es -> field_tells rule (Fld i [Flatten] t) es.
Proof. intros. now apply ft_flat. Qed.

Lemma f_flat_seq {A} rule i t (g : A -> Ser.value * Ser.value) (l : list A) : tells_obj t (map g l) ->
  field_tells rule (Fld i [Flatten; SkipIf (is_empty l)] t) (map g l).
Proof. intros Ht. destruct l as [|x l]; [now apply ft_skipped|]. now apply ft_flat. Qed.

Definition f_opt' {A} rule i (f : A -> option told) g (o : option A) k := f_opt rule i [] f g o k (fun b => orb_false_r b) (fun b => eq_refl).
Lemma opt_str rule i (o : option str) (k : string) : apply_to_field rule (u i) = Some (u k) ->
  field_tells rule (Fld i [SkipIf (is_none o)] (tell_option tell_str o)) (mem_opt k VStr o).
Proof. intros Hn. apply (f_opt' rule i tell_str VStr o k Hn). intros. apply str_tells. Qed.

(** ** Enums *)
Lemma internal_newtype tag rule ident t n es : variant_name rule ident = Some n -> tells_obj t es ->
  tells_obj (derive_internal tag rule ident (NewtypeVariant t)) (mem tag (VStr n) ++ es).
Proof. intros Hn Ht. unfold derive_internal. rewrite Hn. cbn [andthen]. now apply obj_tagged. Qed.
Lemma internal_unit tag rule ident n : variant_name rule ident = Some n ->
  tells_obj (derive_internal tag rule ident UnitVariant) (mem tag (VStr n)).
Proof.
  intros Hn. unfold derive_internal. rewrite Hn. cbn [andthen]. eexists _, _. split; [reflexivity|]. split; [reflexivity|]. split; [reflexivity|].
  repeat constructor.
Qed.
Lemma internal_struct tag rule ident fs n ess : variant_name rule ident = Some n -> existsb flattened fs = false ->
  Forall2 (field_tells RNone) fs ess ->
  tells_obj (derive_internal tag rule ident (StructVariant fs)) (mem tag (VStr n) ++ concat ess).
Proof.
  intros Hn Hf Hfs. unfold derive_internal. rewrite Hn. cbn [andthen].
  destruct (fields_members _ _ _ Hf Hfs) as (l & -> & He & Hk). cbn [option_map]. eexists _, _. split; [reflexivity|]. split; [reflexivity|].
  cbn [map]. rewrite He. split; [reflexivity|]. constructor; auto. split; constructor.
Qed.

(** ** Schemas *)
Lemma simple_tells s : tells_obj (tell_simple s) (ser_simple s).
Proof.
  eapply struct_tells'; [constructor; [now apply opt_str with (k := "format")|constructor; [now apply opt_str with (k := "example")|constructor]]|].
  unfold ser_simple. cbn [concat]. now rewrite app_nil_r.
Qed.
Lemma string_tells s : tells_obj (tell_string s) (ser_string s).
Proof.
  eapply struct_tells'.
  - constructor; [|constructor; [apply f_flat, simple_tells|constructor]].
    apply (f_opt RCamelCase "variants" [Rename "enum"] (tell_vec tell_str) ser_strs (mst_variants s) "enum"); auto using strs_tell.
    intros []; reflexivity.
  - unfold ser_string. cbn [concat]. now rewrite app_nil_r.
Qed.

Lemma vec_tells {A} (f : A -> option told) (g : A -> Ser.value) l : (forall a, In a l -> tells (f a) (g a)) ->
  tells (tell_vec f l) (VSeq (map g l)).
Proof. apply seq_tells. Qed.

Lemma model_tells m : tells (tell_model m) (ser_model m).
Proof.
  induction m as [m IH] using model_ind'.
  assert (Href : forall r, In r (children_of m) -> tells (tell_ref r) (ser_ref r)).
  { intros r Hr. apply child_iff in Hr. destruct r as [l|m'|].
    - cbn. apply obj_tells. eexists _, _. split; [reflexivity|]. split; [reflexivity|]. split; [reflexivity|]. repeat constructor.
    - cbn. now apply IH.
    - cbn. apply obj_tells. eexists _, _. split; [reflexivity|]. split; [reflexivity|]. split; [reflexivity|]. constructor. }
  destruct m as [d data]. cbn [tell_model ser_model]. apply obj_tells.
  assert (Hd : tells_obj (tell_data data) (ser_data data)).
  { destruct data as [[n td]|l|l|l]; cbn [tell_data ser_data]; unfold derive_untagged.
    - cbn [tell_type ser_type].
      assert (Ht : tells_obj (tell_desc td) (ser_desc td)).
      { destruct td as [s|s|s| |i|[p a r]]; cbn [tell_desc ser_desc].
        - apply internal_newtype; [reflexivity|apply string_tells].
        - apply internal_newtype; [reflexivity|apply simple_tells].
        - apply internal_newtype; [reflexivity|apply simple_tells].
        - now apply internal_unit.
        - apply internal_newtype; [reflexivity|]. eapply struct_tells'.
          + constructor; [|constructor]. apply f_mem with (k := "items"); [reflexivity|]. apply Href. now left.
          + reflexivity.
        - apply internal_newtype; [reflexivity|]. cbn [tell_object ser_object]. eapply struct_tells'.
          + constructor; [|constructor; [|constructor; [|constructor]]].
            * apply f_seq with (k := "properties") (g := fun l => VMap (map (fun e => (VStr (fst e), ser_ref (snd e))) l)); [reflexivity|].
              apply map_tells. intros k x Hi. apply Href. cbn. apply in_app_iff. left. apply in_map_iff. now exists (k, x).
            * apply f_opt' with (k := "additionalProperties") (g := fun x => ser_ref x); [reflexivity|]. intros x ->. apply Href. cbn. apply in_app_iff. right. now left.
            * apply f_seq with (k := "required") (g := ser_strs); [reflexivity|]. apply strs_tell.
          + cbn [concat]. now rewrite app_nil_r. }
      eapply struct_tells'; [constructor; [apply f_true with (k := "nullable"); reflexivity|constructor; [now apply f_flat, Ht|constructor]]|].
      cbn [concat]. now rewrite app_nil_r.
    - eapply struct_tells'; [constructor; [|constructor]; apply f_mem with (k := "oneOf"); [reflexivity|now apply vec_tells, Href]|reflexivity].
    - eapply struct_tells'; [constructor; [|constructor]; apply f_mem with (k := "allOf"); [reflexivity|now apply vec_tells, Href]|reflexivity].
    - eapply struct_tells'; [constructor; [|constructor]; apply f_mem with (k := "anyOf"); [reflexivity|now apply vec_tells, Href]|reflexivity]. }
  eapply struct_tells'; [constructor; [now apply opt_str with (k := "description")|constructor; [now apply f_flat, Hd|constructor]]|].
  cbn [concat]. now rewrite app_nil_r.
Qed.
Lemma ref_tells r : tells (tell_ref r) (ser_ref r).
Proof.
  destruct r as [l|m|]; cbn.
  - apply obj_tells. eexists _, _. split; [reflexivity|]. split; [reflexivity|]. split; [reflexivity|]. repeat constructor.
  - apply model_tells.
  - apply obj_tells. eexists _, _. split; [reflexivity|]. split; [reflexivity|]. split; [reflexivity|]. constructor.
Qed.

(** ** Components *)
Lemma in_tells i : tells (tell_in i) (ser_in i).
Proof. destruct i; eexists; (split; [reflexivity|split; [reflexivity|constructor]]). Qed.
Lemma scheme_tells s : tells (tell_scheme s) (ser_scheme s).
Proof.
  destruct s as [[d|f d]|k]; cbn [tell_scheme ser_scheme]; apply obj_tells.
  - apply internal_newtype; [reflexivity|]. cbn [tell_http].
    replace (mem "scheme" (VStr (u "basic")) ++ mem_opt "description" VStr d) with
      (mem "scheme" (VStr (u "basic")) ++ concat [mem_opt "description" VStr d]) by (cbn [concat]; now rewrite app_nil_r).
    apply internal_struct; [reflexivity|reflexivity|]. constructor; [now apply opt_str|constructor].
  - apply internal_newtype; [reflexivity|]. cbn [tell_http].
    replace (mem "scheme" (VStr (u "bearer")) ++ mem_opt "bearerFormat" VStr f ++ mem_opt "description" VStr d) with
      (mem "scheme" (VStr (u "bearer")) ++ concat [mem_opt "bearerFormat" VStr f; mem_opt "description" VStr d]) by (cbn [concat]; now rewrite app_nil_r).
    apply internal_struct; [reflexivity|reflexivity|]. constructor; [|constructor; [now apply opt_str|constructor]].
    apply (f_opt RNone "format" [Rename "bearerFormat"] tell_str VStr f "bearerFormat"); auto using str_tells. intros []; reflexivity.
  - apply internal_newtype; [reflexivity|]. eapply struct_tells'.
    + constructor; [|constructor; [|constructor; [|constructor]]].
      * apply f_renamed, in_tells.
      * apply f_mem with (k := "name"); [reflexivity|apply str_tells].
      * now apply opt_str with (k := "description").
    + cbn [concat]. now rewrite app_nil_r.
Qed.
Lemma components_tell cx : tells (tell_components cx) (ser_components cx).
Proof.
  apply obj_tells. eapply struct_tells'.
  - constructor; [|constructor; [|constructor]].
    + apply f_seq with (k := "schemas") (g := ser_map ser_model); [reflexivity|]. apply map_tells. intros. apply model_tells.
    + apply f_seq with (k := "securitySchemes") (g := ser_map ser_scheme); [reflexivity|]. apply map_tells. intros. apply scheme_tells.
  - cbn [concat]. now rewrite app_nil_r.
Qed.

(** ** Paths *)
Lemma path_text p s : fold_left (fun result element =>
    result ++ u "/" ++ match element with PePath path => path | PeParameter param => u "{" ++ param ++ u "}" end) p s = s ++ render_path p.
Proof.
  revert s. induction p as [|e p IH]; intros s; [now rewrite app_nil_r|]. cbn [fold_left]. rewrite IH, <- app_assoc. reflexivity.
Qed.
Lemma path_key p : exists t, tell_path p = Some t /\ json_key t /\ to_value t = VStr (render_path p).
Proof.
  unfold tell_path, serialize_path_elements. rewrite path_text. eexists. split; [reflexivity|]. split; [|reflexivity]. repeat constructor.
Qed.
Lemma method_key m : exists t, tell_method m = Some t /\ json_key t /\ to_value t = VStr (method_name m).
Proof. destruct m; apply str_key. Qed.

Lemma content_tells r : tells (tell_content r) (ser_content r).
Proof.
  apply obj_tells. eapply struct_tells'; [constructor; [apply f_renamed, obj_tells|constructor]|reflexivity].
  eapply struct_tells'; [constructor; [apply f_mem with (k := "schema"); [reflexivity|apply ref_tells]|constructor]|reflexivity].
Qed.
Lemma body_tells b : tells (tell_body b) (ser_body b).
Proof.
  apply obj_tells. eapply struct_tells'.
  - constructor; [|constructor; [|constructor; [|constructor]]].
    + now apply f_true with (k := "required").
    + apply f_mem with (k := "description"); [reflexivity|]. instantiate (1 := match rb_description b with Some s => VStr s | None => VNull end).
      destruct (rb_description b); [apply some_tells, str_tells|apply none_tells].
    + apply f_mem with (k := "content"); [reflexivity|apply content_tells].
  - cbn [concat]. now rewrite app_nil_r.
Qed.
Lemma response_tells r : tells (tell_response r) (ser_response r).
Proof.
  apply obj_tells. eapply struct_tells'.
  - constructor; [|constructor; [|constructor]].
    + apply f_mem with (k := "description"); [reflexivity|apply str_tells].
    + apply f_opt' with (k := "content") (g := ser_content); [reflexivity|]. intros. apply content_tells.
  - cbn [concat]. now rewrite app_nil_r.
Qed.
Lemma parameter_tells e : tells (tell_parameter e) (ser_parameter e).
Proof.
  destruct e as [name p]. apply obj_tells. eapply struct_tells'.
  - constructor; [|constructor; [|constructor; [|constructor; [|constructor; [|constructor; [|constructor]]]]]].
    + apply f_mem with (k := "name"); [reflexivity|apply str_tells].
    + now apply opt_str with (k := "description").
    + apply f_renamed, in_tells.
    + now apply f_true with (k := "required").
    + now apply f_true with (k := "deprecated").
    + apply f_opt' with (k := "schema") (g := ser_ref); [reflexivity|]. intros. apply ref_tells.
  - cbn [concat]. now rewrite app_nil_r.
Qed.
Lemma parameters_tell m : tells (serialize_parameters m) (ser_parameters m).
Proof. apply seq_tells. intros. apply parameter_tells. Qed.

Section Nested.
  Variable tell_callback : callback -> option told.
  Variable ser_callback : callback -> Ser.value.
  Lemma operation_tells o : (forall k c, In (k, c) (op_callbacks o) -> tells (tell_callback c) (ser_callback c)) ->
    tells (tell_operation_with tell_callback o) (ser_operation_with ser_callback o).
  Proof.
    intros Hc. apply obj_tells. eapply struct_tells'.
    - constructor; [|constructor; [|constructor; [|constructor; [|constructor; [|constructor; [|constructor; [|constructor; [|constructor; [|constructor; [|constructor]]]]]]]]]].
      + apply f_seq with (k := "tags") (g := ser_strs); [reflexivity|apply strs_tell].
      + now apply opt_str with (k := "summary").
      + now apply opt_str with (k := "operationId").
      + now apply opt_str with (k := "description").
      + now apply f_true with (k := "deprecated").
      + apply f_seq with (k := "security") (g := fun l => VSeq (map (ser_map ser_strs) l)); [reflexivity|].
        apply vec_tells. intros m _. apply map_tells. intros. apply strs_tell.
      + apply f_opt' with (k := "requestBody") (g := ser_body); [reflexivity|]. intros. apply body_tells.
      + apply f_mem with (k := "responses"); [reflexivity|]. apply obj_tells.
        apply (entries_tell (fun n => Some (ToU16 n)) tell_response VNum ser_response).
        intros k v _. split; [|apply response_tells]. exists (ToU16 k). repeat split. constructor.
      + apply f_seq with (k := "parameters") (g := ser_parameters); [reflexivity|apply parameters_tell].
      + apply f_seq with (k := "callbacks") (g := fun l => VMap (map (fun e => (VStr (fst e), ser_callback (snd e))) l)); [reflexivity|].
        now apply map_tells.
    - cbn [concat]. now rewrite app_nil_r.
  Qed.
  Lemma path_value_tells v :
    (forall m o k c, In (m, o) (pv_operations v) -> In (k, c) (op_callbacks o) -> tells (tell_callback c) (ser_callback c)) ->
    tells (tell_path_value_with tell_callback v) (ser_path_value_with ser_callback v).
  Proof.
    intros Hc. apply obj_tells. eapply struct_tells'.
    - constructor; [|constructor; [|constructor; [|constructor; [|constructor]]]].
      + now apply opt_str with (k := "summary").
      + now apply opt_str with (k := "description").
      + apply f_flat_seq with (g := fun e => (VStr (method_name (fst e)), ser_operation_with ser_callback (snd e))).
        apply (entries_tell tell_method (tell_operation_with tell_callback) (fun m => VStr (method_name m)) (ser_operation_with ser_callback)).
        intros m o Hi. split; [apply method_key|]. apply operation_tells. intros k c Hk. eapply Hc; eauto.
      + apply f_seq with (k := "parameters") (g := ser_parameters); [reflexivity|apply parameters_tell].
    - cbn [concat]. now rewrite app_nil_r.
  Qed.
  Lemma paths_tell l :
    (forall p v m o k c, In (p, v) l -> In (m, o) (pv_operations v) -> In (k, c) (op_callbacks o) -> tells (tell_callback c) (ser_callback c)) ->
    tells_obj (serialize_ordered_entries tell_path (tell_path_value_with tell_callback) l)
      (map (fun e => (VStr (render_path (fst e)), ser_path_value_with ser_callback (snd e))) l).
  Proof.
    intros Hc. apply (entries_tell tell_path (tell_path_value_with tell_callback) (fun p => VStr (render_path p)) (ser_path_value_with ser_callback)).
    intros p v Hi. split; [apply path_key|]. apply path_value_tells. intros. eapply Hc; eauto.
  Qed.
End Nested.

Lemma callback_tells c : tells (tell_callback c) (ser_callback c).
Proof.
  induction c as [c IH] using callback_ind'. destruct c as [l]. cbn [cb_paths] in IH. cbn [tell_callback ser_callback].
  unfold ser_paths_with. apply obj_tells. pose proof (paths_tell tell_callback ser_callback l IH) as Hl.
  eapply struct_tells'.
  - constructor; [|constructor]. apply f_flat_seq with (g := fun e => (VStr (render_path (fst e)), ser_path_value_with ser_callback (snd e))). exact Hl.
  - cbn [concat]. now rewrite app_nil_r.
Qed.

(** ** The document *)
Lemma info_tells i : tells (tell_info i) (ser_info i).
Proof.
  apply obj_tells. eapply struct_tells'.
  - constructor; [|constructor; [|constructor; [|constructor]]].
    + apply f_mem with (k := "title"); [reflexivity|apply str_tells].
    + now apply opt_str with (k := "description").
    + apply f_mem with (k := "version"); [reflexivity|apply str_tells].
  - cbn [concat]. now rewrite app_nil_r.
Qed.
Lemma server_tells s : tells (tell_server s) (ser_server s).
Proof.
  apply obj_tells. eapply struct_tells'.
  - constructor; [|constructor; [|constructor]].
    + apply f_mem with (k := "url"); [reflexivity|apply str_tells].
    + now apply opt_str with (k := "description").
  - cbn [concat]. now rewrite app_nil_r.
Qed.
Lemma tag_tells e : tells (tell_tag e) (ser_tag e).
Proof.
  apply obj_tells. eapply struct_tells'.
  - constructor; [|constructor; [|constructor]].
    + apply f_mem with (k := "name"); [reflexivity|apply str_tells].
    + now apply opt_str with (k := "description").
  - cbn [concat]. now rewrite app_nil_r.
Qed.
Lemma opg_tells d : tells (tell_opg d) (ser_opg d).
Proof.
  apply obj_tells. eapply struct_tells'.
  - constructor; [|constructor; [|constructor; [|constructor; [|constructor; [|constructor; [|constructor]]]]]].
    + apply f_mem with (k := "openapi"); [reflexivity|]. eexists. split; [reflexivity|]. split; [reflexivity|]. repeat constructor.
    + apply f_mem with (k := "info"); [reflexivity|apply info_tells].
    + apply f_seq with (k := "tags") (g := fun l => VSeq (map ser_tag l)); [reflexivity|]. apply seq_tells. intros. apply tag_tells.
    + apply f_seq with (k := "servers") (g := fun l => VSeq (map ser_server l)); [reflexivity|]. apply vec_tells. intros. apply server_tells.
    + apply f_seq with (k := "paths") (g := ser_paths); [reflexivity|]. apply obj_tells. apply paths_tell. intros. apply callback_tells.
    + apply f_mem with (k := "components"); [reflexivity|apply components_tell].
  - cbn [concat]. now rewrite app_nil_r.
Qed.
