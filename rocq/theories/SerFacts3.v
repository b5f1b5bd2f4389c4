(** Facts about serialisation: what its parts look like. *)
From Verif Require Import SerSpec SchemaFacts SerFacts SerFacts2.
Local Open Scope string_scope. Local Open Scope list_scope.

(** ** Parts *)
Definition All (Q : value -> Prop) (v : value) : Prop := forall w, part w v -> Q w.
Definition AllE (Q : value -> Prop) (l : entries) : Prop := forall k v, In (k, v) l -> All Q k /\ All Q v.

Lemma part_trans a b c : part a b -> part b c -> part a c.
Proof. intros Hab Hbc. induction Hbc; [exact Hab| | |]; [eapply part_element|eapply part_key|eapply part_entry]; eauto. Qed.

Section All.
  Variable Q : value -> Prop.
  Hypothesis Q_str : forall s, Q (VStr s).
  Hypothesis Q_num : forall n, Q (VNum n).
  Hypothesis Q_bool : forall b, Q (VBool b).
  Hypothesis Q_seq : forall l, Q (VSeq l).

  Lemma All_str s : All Q (VStr s). Proof. intros w H. inversion H; subst. apply Q_str. Qed.
  Lemma All_num n : All Q (VNum n). Proof. intros w H. inversion H; subst. apply Q_num. Qed.
  Lemma All_bool b : All Q (VBool b). Proof. intros w H. inversion H; subst. apply Q_bool. Qed.
  Lemma All_seq l : (forall v, In v l -> All Q v) -> All Q (VSeq l).
  Proof. intros Hl w H. inversion H; subst; [apply Q_seq|]. eapply Hl; eauto. Qed.
  Lemma All_map l : Q (VMap l) -> AllE Q l -> All Q (VMap l).
  Proof. intros Hq Hl w H. inversion H; subst; [exact Hq| |]; (match goal with Hi : In (_, _) _ |- _ => destruct (Hl _ _ Hi) as [Hx Hy]; auto end). Qed.
  Lemma AllE_nil : AllE Q []. Proof. intros k v []. Qed.
  Lemma AllE_app a b : AllE Q a -> AllE Q b -> AllE Q (a ++ b).
  Proof. intros Ha Hb k v H. apply in_app_iff in H. destruct H; [now apply Ha|now apply Hb]. Qed.
  Lemma AllE_mem k v : All Q v -> AllE Q (mem k v).
  Proof. intros Hv k' v' [[= <- <-]|[]]. split; [apply All_str|exact Hv]. Qed.
  Lemma AllE_opt {A} k (f : A -> value) o : (forall a, o = Some a -> All Q (f a)) -> AllE Q (mem_opt k f o).
  Proof. intros H. destruct o; cbn [mem_opt]; [now apply AllE_mem, H|apply AllE_nil]. Qed.
  Lemma AllE_true k b : AllE Q (mem_true k b).
  Proof. destruct b; cbn [mem_true]; [apply AllE_mem, All_bool|apply AllE_nil]. Qed.
  Lemma AllE_seq {A} k (f : list A -> value) l : All Q (f l) -> AllE Q (mem_seq k f l).
  Proof. intros H. destruct l; cbn [mem_seq]; [apply AllE_nil|now apply AllE_mem]. Qed.
  Lemma AllE_map {A} (f : A -> value) (g : A -> value) l :
    (forall a, In a l -> All Q (f a) /\ All Q (g a)) -> AllE Q (map (fun a => (f a, g a)) l).
  Proof. intros H k v Hi. apply in_map_iff in Hi. destruct Hi as (a & [= <- <-] & Ha). now apply H. Qed.
  Lemma AllE_strs k o : AllE Q (mem_opt k VStr o).
  Proof. apply AllE_opt. intros a _. apply All_str. Qed.
  Lemma All_ser_strs l : All Q (ser_strs l).
  Proof. apply All_seq. intros v H. apply in_map_iff in H. destruct H as (s & <- & _). apply All_str. Qed.
  Lemma AllE_simple s : AllE Q (ser_simple s).
  Proof. apply AllE_app; apply AllE_strs. Qed.

  (** [Q] of the mappings of the document, each given that its members are fine *)
  Variable WM : model -> Prop.
  Hypothesis WM_child : forall m m', WM m -> child (Inline m') m -> WM m'.
  Hypothesis Q_model : forall m, WM m -> Q (ser_model m).
  Hypothesis Q_props : forall d n p a r, WM (Model d (Single (MType n (TdObject (MObject p a r))))) ->
    Q (VMap (map (fun e => (VStr (fst e), ser_ref (snd e))) p)).
  Variable WL : str -> Prop.
  Hypothesis WM_link : forall m l, WM m -> child (Link l) m -> WL l.
  Hypothesis Q_link : forall l, WL l -> Q (ser_ref (Link l)).
  Hypothesis Q_any : Q (VMap []).
  Definition WR (r : model_ref) : Prop := match r with Link l => WL l | Inline m => WM m | Any => True end.

  Lemma All_link l : WL l -> All Q (ser_ref (Link l)).
  Proof. intros H. apply All_map; [now apply Q_link|]. apply AllE_mem, All_str. Qed.
  Lemma All_any : All Q (ser_ref Any).
  Proof. apply All_map; [exact Q_any|apply AllE_nil]. Qed.
  Lemma All_model m : WM m -> All Q (ser_model m).
  Proof.
    induction m as [m IH] using model_ind'. intros Hm.
    assert (Hc : forall r, child r m -> All Q (ser_ref r)).
    { intros [l|m'|] H; [eapply All_link, WM_link; eauto|apply IH; [exact H|eapply WM_child; eauto]|apply All_any]. }
    assert (Hq := Q_model m Hm). assert (Hp : forall d n p a r, m = Model d (Single (MType n (TdObject (MObject p a r)))) -> Q (VMap (map (fun e => (VStr (fst e), ser_ref (snd e))) p))).
    { intros d n p a r ->. eapply Q_props; eauto. }
    destruct m as [d data]. cbn [ser_model] in *. apply All_map; [exact Hq|]. apply AllE_app; [apply AllE_strs|].
    destruct data as [[n td]|l|l|l]; cbn [ser_data].
    2-4: apply AllE_mem, All_seq; intros v H; apply in_map_iff in H; destruct H as (r & <- & Hr); apply Hc; now constructor.
    cbn [ser_type]. apply AllE_app; [apply AllE_true|].
    destruct td as [s|s|s| |i|[p a r]]; cbn [ser_desc];
      try (apply AllE_app; [apply AllE_mem, All_str|]).
    - apply AllE_app; [apply AllE_opt; intros; apply All_ser_strs|apply AllE_simple].
    - apply AllE_simple.
    - apply AllE_simple.
    - apply AllE_mem, All_str.
    - apply AllE_mem, Hc. constructor.
    - cbn [ser_object]. apply AllE_app; [|apply AllE_app].
      + apply AllE_seq, All_map; [eapply Hp; eauto|]. apply AllE_map. intros [k x] Hi. split; [apply All_str|].
        apply Hc. now apply ch_prop with k.
      + apply AllE_opt. intros x ->. apply Hc. constructor.
      + apply AllE_seq, All_ser_strs.
  Qed.
  Lemma All_ref r : WR r -> All Q (ser_ref r).
  Proof. destruct r; intros H; [now apply All_link|now apply All_model|apply All_any]. Qed.

  Hypothesis Q_scheme : forall s, Q (ser_scheme s).
  Hypothesis Q_body : forall b, Q (ser_body b).
  Hypothesis Q_content : forall r, Q (ser_content r).
  Hypothesis Q_schema : forall r, Q (VMap (mem "schema" (ser_ref r))).
  Hypothesis Q_response : forall r, Q (ser_response r).
  Hypothesis Q_parameter : forall e, Q (ser_parameter e).
  Hypothesis Q_operation : forall o, Q (ser_operation o).
  Hypothesis Q_info : forall i, Q (ser_info i).
  Hypothesis Q_server : forall s, Q (ser_server s).
  Hypothesis Q_tag : forall t, Q (ser_tag t).
  Hypothesis Q_components : forall c, Q (ser_components c).
  Hypothesis Q_opg : forall d, Q (ser_opg d).

  Lemma All_scheme s : All Q (ser_scheme s).
  Proof.
    assert (Hq := Q_scheme s). destruct s as [[d|f d]|[i n d]]; cbn [ser_scheme] in *; apply All_map; auto;
      repeat apply AllE_app; try apply AllE_strs; apply AllE_mem, All_str.
  Qed.
  Lemma All_content r : WR r -> All Q (ser_content r).
  Proof. intros H. apply All_map; [apply Q_content|]. apply AllE_mem, All_map; [apply Q_schema|]. now apply AllE_mem, All_ref. Qed.
  Definition WB (b : request_body) : Prop :=
    WR (rb_schema b) /\ All Q (match rb_description b with Some s => VStr s | None => VNull end).
  Lemma All_body b : WB b -> All Q (ser_body b).
  Proof.
    intros [H1 H2]. apply All_map; [apply Q_body|]. apply AllE_app; [apply AllE_true|]. apply AllE_app; [now apply AllE_mem|].
    now apply AllE_mem, All_content.
  Qed.
  Lemma All_response r : (forall x, rs_schema r = Some x -> WR x) -> All Q (ser_response r).
  Proof.
    intros H. apply All_map; [apply Q_response|]. apply AllE_app; [apply AllE_mem, All_str|].
    apply AllE_opt. intros x Hx. now apply All_content, H.
  Qed.
  Lemma All_parameters m : (forall k a r, In (k, a) m -> pr_schema a = Some r -> WR r) -> All Q (ser_parameters m).
  Proof.
    intros H. apply All_seq. intros v Hv. apply in_map_iff in Hv. destruct Hv as ([k a] & <- & Hi).
    assert (Hq := Q_parameter (k, a)). cbn [ser_parameter] in *. apply All_map; [exact Hq|].
    repeat apply AllE_app; try apply AllE_strs; try apply AllE_true; try (apply AllE_mem, All_str).
    apply AllE_opt. intros r Hr. eapply All_ref, H; eauto.
  Qed.
  Variable WO : operation -> Prop.
  Hypothesis WO_ref : forall o r, WO o -> operation_ref r o -> WR r.
  Hypothesis WO_body : forall o b, WO o -> op_body o = Some b -> All Q (match rb_description b with Some s => VStr s | None => VNull end).
  Hypothesis WO_security : forall o s, WO o -> In s (op_security o) -> Q (ser_map ser_strs s).
  Hypothesis WO_responses : forall o, WO o -> Q (VMap (map (fun e => (VNum (fst e), ser_response (snd e))) (op_responses o))).
  Hypothesis WO_callbacks : forall o, WO o -> Q (VMap (map (fun e => (VStr (fst e), ser_callback (snd e))) (op_callbacks o))).
  Lemma All_operation o : WO o -> (forall k c, In (k, c) (op_callbacks o) -> All Q (ser_callback c)) -> All Q (ser_operation o).
  Proof.
    intros Ho Hc. assert (Hq := Q_operation o). unfold ser_operation, ser_operation_with in *. apply All_map; [exact Hq|].
    repeat apply AllE_app; try apply AllE_strs; try apply AllE_true.
    - apply AllE_seq, All_ser_strs.
    - apply AllE_seq, All_seq. intros v Hv. apply in_map_iff in Hv. destruct Hv as (s & <- & Hs).
      apply All_map; [eapply WO_security; eauto|]. apply AllE_map. intros [k x] _. split; [apply All_str|apply All_ser_strs].
    - apply AllE_opt. intros b Hb. apply All_body. split; [|eapply WO_body; eauto]. eapply WO_ref; [exact Ho|]. now apply orf_body with b.
    - apply AllE_mem, All_map; [now apply WO_responses|]. apply AllE_map. intros [k r] Hi. split; [apply All_num|].
      apply All_response. intros x Hx. eapply WO_ref; [exact Ho|]. eapply orf_response; eauto.
    - apply AllE_seq, All_parameters. intros k a r Hi Hr. eapply WO_ref; [exact Ho|]. eapply orf_parameter; eauto.
    - apply AllE_seq, All_map; [now apply WO_callbacks|]. apply AllE_map. intros [k c] Hi. split; [apply All_str|]. eapply Hc; eauto.
  Qed.
  Variable WV : path_value -> Prop.
  Hypothesis WV_ref : forall v r, WV v -> path_ref r v -> WR r.
  Hypothesis WV_value : forall v, WV v -> Q (ser_path_value v).
  Lemma All_path_value v : WV v -> (forall m o, In (m, o) (pv_operations v) -> All Q (ser_operation o)) -> All Q (ser_path_value v).
  Proof.
    intros Hv Ho. assert (Hq := WV_value v Hv). unfold ser_path_value, ser_path_value_with in *. apply All_map; [exact Hq|].
    repeat apply AllE_app; try apply AllE_strs.
    - apply AllE_map. intros [m o] Hi. split; [apply All_str|]. eapply Ho; eauto.
    - apply AllE_seq, All_parameters. intros k a r Hi Hr. eapply WV_ref; [exact Hv|]. eapply prf_parameter; eauto.
  Qed.
  Variable WP : list (path * path_value) -> Prop.
  Hypothesis WP_paths : forall l, WP l -> Q (ser_paths l).
  Hypothesis WP_value : forall l p v, WP l -> In (p, v) l -> WV v.
  Hypothesis WP_operation : forall l p v m o, WP l -> In (p, v) l -> In (m, o) (pv_operations v) -> WO o.
  Hypothesis WP_callback : forall l p v m o k c, WP l -> In (p, v) l -> In (m, o) (pv_operations v) -> In (k, c) (op_callbacks o) -> WP (cb_paths c).
  Lemma All_paths_step l : WP l ->
    (forall p v m o k c, In (p, v) l -> In (m, o) (pv_operations v) -> In (k, c) (op_callbacks o) -> All Q (ser_callback c)) -> All Q (ser_paths l).
  Proof.
    intros Hl Hc. assert (Hq := WP_paths l Hl). unfold ser_paths, ser_paths_with in *. apply All_map; [exact Hq|].
    apply AllE_map. intros [p v] Hi. split; [apply All_str|]. cbn [snd]. apply All_path_value; [eapply WP_value; eauto|].
    intros m o Ho. apply All_operation; [eapply WP_operation; eauto|]. intros k c Hk. eapply Hc; eauto.
  Qed.
  Lemma All_callback c : WP (cb_paths c) -> All Q (ser_callback c).
  Proof.
    induction c as [c IH] using callback_ind'. intros Hc. destruct c as [l]. apply (All_paths_step l Hc).
    intros. eapply IH; eauto.
  Qed.
  Lemma All_paths l : WP l -> All Q (ser_paths l).
  Proof. intros Hl. apply All_paths_step; [exact Hl|]. intros. eapply All_callback, WP_callback; eauto. Qed.
  Lemma All_opg d : WP (og_paths d) -> (forall k m, In (k, m) (cx_schemas (og_components d)) -> WM m) ->
    Q (ser_map ser_model (cx_schemas (og_components d))) -> Q (ser_map ser_scheme (cx_security (og_components d))) ->
    All Q (ser_opg d).
  Proof.
    intros Hp Hm Hs1 Hs2. apply All_map; [apply Q_opg|]. repeat apply AllE_app; try (apply AllE_mem, All_str).
    - apply AllE_mem, All_map; [apply Q_info|]. repeat apply AllE_app; try apply AllE_strs; apply AllE_mem, All_str.
    - apply AllE_seq, All_seq. intros v Hv. apply in_map_iff in Hv. destruct Hv as (t & <- & _).
      apply All_map; [apply Q_tag|]. apply AllE_app; [apply AllE_mem, All_str|apply AllE_strs].
    - apply AllE_seq, All_seq. intros v Hv. apply in_map_iff in Hv. destruct Hv as (t & <- & _).
      apply All_map; [apply Q_server|]. apply AllE_app; [apply AllE_mem, All_str|apply AllE_strs].
    - apply AllE_seq. now apply All_paths.
    - apply AllE_mem, All_map; [apply Q_components|]. apply AllE_app; apply AllE_seq; (apply All_map; [assumption|]); apply AllE_map.
      + intros [k m] Hi. split; [apply All_str|]. eapply All_model, Hm; eauto.
      + intros [k s] _. split; [apply All_str|apply All_scheme].
  Qed.
End All.

(** ** Fixed keys *)
Inductive subseq {A} : list A -> list A -> Prop :=
| ss_nil l : subseq [] l
| ss_take a l l' : subseq l l' -> subseq (a :: l) (a :: l')
| ss_skip a l l' : subseq l l' -> subseq l (a :: l').
Lemma subseq_app {A} (a b a' b' : list A) : subseq a a' -> subseq b b' -> subseq (a ++ b) (a' ++ b').
Proof.
  intros Ha Hb. induction Ha as [a'|x l l' Ha IH|x l l' Ha IH]; cbn.
  - induction a'; [exact Hb|now apply ss_skip].
  - now apply ss_take.
  - now apply ss_skip.
Qed.
Lemma subseq_In {A} (l l' : list A) x : subseq l l' -> In x l -> In x l'.
Proof. intros H. induction H; cbn; [tauto| |]; intuition. Qed.
Lemma subseq_NoDup {A} (l l' : list A) : subseq l l' -> NoDup l' -> NoDup l.
Proof.
  intros H. induction H; intros Hn; [constructor| |].
  - inversion Hn; subst. constructor; [|auto]. intros Hi. eapply subseq_In in Hi; eauto.
  - inversion Hn; subst. auto.
Qed.
Definition keyed (ks : list str) (l : entries) : Prop := subseq (map fst l) (map VStr ks).
Lemma keyed_app a b ks ks' : keyed ks a -> keyed ks' b -> keyed (ks ++ ks') (a ++ b).
Proof. unfold keyed. rewrite !map_app. apply subseq_app. Qed.
Lemma keyed_mem k v : keyed [u k] (mem k v).
Proof. apply ss_take, ss_nil. Qed.
Lemma keyed_opt {A} k (f : A -> value) o : keyed [u k] (mem_opt k f o).
Proof. destruct o; [apply keyed_mem|apply ss_nil]. Qed.
Lemma keyed_true k b : keyed [u k] (mem_true k b).
Proof. destruct b; [apply keyed_mem|apply ss_nil]. Qed.
Lemma keyed_seq {A} k (f : list A -> value) l : keyed [u k] (mem_seq k f l).
Proof. destruct l; [apply ss_nil|apply keyed_mem]. Qed.
Ltac keyed := repeat first [apply keyed_mem|apply keyed_opt|apply keyed_true|apply keyed_seq|eapply keyed_app].

(** fixed keys: distinct, and not [$ref] *)
Fixpoint nodupb (l : list str) : bool := match l with [] => true | a :: l' => negb (existsb (str_eqb a) l') && nodupb l' end.
Lemma nodupb_NoDup l : nodupb l = true -> NoDup l.
Proof.
  induction l as [|a l IH]; cbn; [constructor|]. rewrite andb_true_iff, negb_true_iff. intros [H1 H2]. constructor; [|auto].
  intros Hi. assert (existsb (str_eqb a) l = true) by (apply existsb_exists; exists a; split; [exact Hi|apply str_eqb_refl]). congruence.
Qed.
Definition fixed (l : entries) : Prop := exists ks, keyed ks l /\ nodupb ks = true /\ existsb (str_eqb (u "$ref")) ks = false.
Lemma fixed_NoDup l : fixed l -> NoDup (map fst l).
Proof.
  intros (ks & Hk & Hn & _). eapply subseq_NoDup; [exact Hk|]. apply nodupb_NoDup in Hn. clear Hk.
  induction Hn; cbn; constructor; auto. intros Hi. apply in_map_iff in Hi. destruct Hi as (y & [= ->] & Hy). contradiction.
Qed.
Lemma fixed_ref l v : fixed l -> ~ In (VStr (u "$ref"), v) l.
Proof.
  intros (ks & Hk & _ & Hn) Hi. apply (in_map fst) in Hi. eapply subseq_In in Hi; [|exact Hk].
  apply in_map_iff in Hi. destruct Hi as (y & [= ->] & Hy).
  assert (existsb (str_eqb (u "$ref")) ks = true) by (apply existsb_exists; eexists; split; [exact Hy|apply str_eqb_refl]). congruence.
Qed.
Ltac fixed := eexists; split; [keyed|split; vm_compute; reflexivity].

Definition is_fixed (v : value) : Prop := match v with VMap l => fixed l | _ => True end.
Lemma fixed_data k data : k = "description" -> forall o : option str, fixed (mem_opt k VStr o ++ ser_data data).
Proof.
  intros -> o. destruct data as [[n [s|s|s| |i|[p a r]]]|l|l|l]; cbn [ser_data ser_type ser_desc ser_object];
    unfold ser_string, ser_simple; fixed.
Qed.
Lemma fixed_model m : is_fixed (ser_model m).
Proof. destruct m as [d data]. now apply fixed_data. Qed.
Lemma fixed_scheme s : is_fixed (ser_scheme s).
Proof. destruct s as [[d|f d]|[i n d]]; cbn [ser_scheme is_fixed]; fixed. Qed.
Lemma fixed_body b : is_fixed (ser_body b). Proof. unfold ser_body; cbn [is_fixed]; fixed. Qed.
Lemma fixed_content b : is_fixed (ser_content b). Proof. unfold ser_content; cbn [is_fixed]; fixed. Qed.
Lemma fixed_schema r : is_fixed (VMap (mem "schema" (ser_ref r))). Proof. cbn [is_fixed]; fixed. Qed.
Lemma fixed_response b : is_fixed (ser_response b). Proof. unfold ser_response; cbn [is_fixed]; fixed. Qed.
Lemma fixed_parameter b : is_fixed (ser_parameter b). Proof. destruct b; cbn [is_fixed ser_parameter]; fixed. Qed.
Lemma fixed_operation b : is_fixed (ser_operation b). Proof. unfold ser_operation, ser_operation_with; cbn [is_fixed]; fixed. Qed.
Lemma fixed_info b : is_fixed (ser_info b). Proof. unfold ser_info; cbn [is_fixed]; fixed. Qed.
Lemma fixed_server b : is_fixed (ser_server b). Proof. unfold ser_server; cbn [is_fixed]; fixed. Qed.
Lemma fixed_tag b : is_fixed (ser_tag b). Proof. unfold ser_tag; cbn [is_fixed]; fixed. Qed.
Lemma fixed_components b : is_fixed (ser_components b). Proof. unfold ser_components; cbn [is_fixed]; fixed. Qed.
Lemma fixed_opg b : is_fixed (ser_opg b). Proof. unfold ser_opg; cbn [is_fixed]; fixed. Qed.
