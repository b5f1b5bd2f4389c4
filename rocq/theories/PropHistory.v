(** Any sequence of calls on the components: C85. *)
From Verif Require Import Schema SchemaSpec SchemaFacts Gen GenSpec HistorySpec HistoryFacts PropGen.

(** * C85: what the components hold after any sequence of calls *)

(** A [history] (HistorySpec.v) is a sequence of calls, from anywhere in a program, that mention types, ask for their schemas, add
    models by hand, and give security schemes.

    [contains_model] says whether there is a schema of that name. *)
Theorem C85_contains : forall cx n, contains_model cx n = true <-> exists m, bm_get n (cx_schemas cx) = Some m.
Proof.
  intros cx n. rewrite contains_registered. unfold registered. destruct (bm_get n (cx_schemas cx)); split; eauto; try discriminate; [now intros H|].
  now intros [m H].
Qed.
Print Assumptions C85_contains.
(** Only what was added under that name, or is a type of that name linked from a type consulted; and it holds just that model, or just
    the schema of such a type. *)
Theorem C85_only_called : forall E ops cx n, history E ops cx_new cx -> contains_model cx n = true ->
  (exists m, In (Adds n m) ops) \/ exists t, linked E (consulted ops) t /\ type_name E t = Some n.
Proof. intros E ops cx n. exact (history_mentioned E ops n cx). Qed.
Print Assumptions C85_only_called.
Theorem C85_schemas : forall E ops cx n m, history E ops cx_new cx -> bm_get n (cx_schemas cx) = Some m ->
  In (Adds n m) ops \/ exists t cx0 cx1, linked E (consulted ops) t /\ type_name E t = Some n /\ schema_returns E t cx0 m cx1.
Proof. exact history_known. Qed.
Print Assumptions C85_schemas.
(** What was added, or mentioned by its name, at any time before, is there. *)
Theorem C85_added_is_there : forall E ops cx cx' n m, history E ops cx cx' -> In (Adds n m) ops -> contains_model cx' n = true.
Proof. intros E ops cx cx' n m H Hi. exact (history_brings E ops (Adds n m) n cx cx' Hi eq_refl H). Qed.
Print Assumptions C85_added_is_there.
Theorem C85_mentioned_is_there : forall E ops cx cx' t p n, history E ops cx cx' -> In (Mentions t false p) ops -> type_name E t = Some n ->
  contains_model cx' n = true.
Proof. intros E ops cx cx' t p n H Hi Hn. exact (history_brings E ops (Mentions t false p) n cx cx' Hi Hn H). Qed.
Print Assumptions C85_mentioned_is_there.
(** A model added under a name that is free keeps the name, whatever comes after. *)
Theorem C85_added_free : forall E ops ops' cx cx1 cx' n m, history E ops cx cx1 -> contains_model cx1 n = false ->
  history E (Adds n m :: ops') cx1 cx' -> bm_get n (cx_schemas cx') = Some m.
Proof. intros E ops ops' cx cx1 cx' n m. exact (history_added E ops ops' n m cx cx1 cx'). Qed.
Print Assumptions C85_added_free.
(** Links that lead nowhere stand only in models that were added by hand; if all links in these lead somewhere, the components verify. *)
Theorem C85_dangling : forall E ops cx n m l, history E ops cx_new cx -> bm_get n (cx_schemas cx) = Some m -> occurs_in l m ->
  contains_model cx l = false -> In (Adds n m) ops.
Proof. exact history_dangling. Qed.
Print Assumptions C85_dangling.
Theorem C85_verify : forall E ops cx, history E ops cx_new cx ->
  (forall n m l, In (Adds n m) ops -> occurs_in l m -> contains_model cx l = true) ->
  verify_schemas (cx_schemas cx) = None /\ links_closed (cx_schemas cx).
Proof. exact history_verified. Qed.
Print Assumptions C85_verify.
(** The security schemes are exactly those given, the first for each name. *)
Theorem C85_security : forall E ops cx n, history E ops cx_new cx -> bm_get n (cx_security cx) = first_scheme n ops.
Proof. intros E ops cx n H. exact (history_security E ops n cx_new cx H). Qed.
Print Assumptions C85_security.

(** A type is mentioned, a model with a link to it and to another is added, its own name is added in vain, two schemes are given for one
    name; the link that leads nowhere is found in the model added. *)
Definition hand_made : model := Model None (OneOf [Link (u "Line"); Link (u "Nowhere")]).
Definition some_ops : list operation :=
  [Mentions (TNamed 1) false params_default; Adds (u "Hand") hand_made; Adds (u "Line") describe_boolean;
   Secures (u "key") (Http (Basic None)); Secures (u "key") (Http (Bearer None None)); Asks (TNamed 0)].
Example C85_case : exists cx, history ex_env some_ops cx_new cx /\
  bm_keys (cx_schemas cx) = [u "Hand"; u "Line"; u "Point"] /\ bm_get (u "Line") (cx_schemas cx) <> Some describe_boolean /\
  contains_model cx (u "Nowhere") = false /\ occurs_in (u "Nowhere") hand_made /\ bm_get (u "Hand") (cx_schemas cx) = Some hand_made /\
  bm_get (u "key") (cx_security cx) = Some (Http (Basic None)).
Proof.
  eexists. split.
  - eapply hs_cons; [eapply pf_mention; exists 20; vm_compute; reflexivity|]. do 4 (eapply hs_cons; [constructor|]).
    eapply hs_cons; [eapply pf_schema; exists 20; vm_compute; reflexivity|]. apply hs_nil.
  - split; [vm_compute; reflexivity|]. split; [vm_compute; discriminate|]. split; [vm_compute; reflexivity|].
    split; [|split; vm_compute; reflexivity]. eexists. split; [apply ch_oneof; right; left; reflexivity|constructor].
Qed.
