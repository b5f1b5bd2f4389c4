(** Validation of generated schemas, by the code that generates them. *)
From Verif Require Import Attr AttrSpec AttrFacts Ast AstFacts Derive DeriveSpec Schema SchemaSpec SchemaFacts Gen GenSpec
  GenFacts GenFacts2 GenFacts3 GenFacts4 DeriveFacts DeriveFacts2 SoundSpec FitsSpec FitsFacts.
From Coq Require Import Arith Lia ZArith.

Lemma fits_apply loose S p m j : harmless p -> meets_model loose S m j -> meets_model loose S (apply_params p m) j.
Proof.
  intros [Hv Hn] H. destruct p as [d0 n0 v0 f0 e0]. cbn in Hv, Hn. subst v0.
  inversion H; subst; cbn; try (econstructor; eauto; fail).
  - destruct n0 as [[|]|]; [constructor|now destruct Hn|constructor].
Qed.

Lemma nullable_fits loose S m : nullable_of m <> None -> meets_model loose S (apply_params nullable_params m) JNull.
Proof. destruct m as [d [ [n td] |l|l|l] ]; cbn; intros H; try now destruct H. constructor. Qed.

Lemma prim_fits loose S p j : prim_emits p j -> meets_model loose S (prim_schema p) j.
Proof.
  intros H. inversion H as [c|p' s Hp|p' sg bits z Hp Hr|p' x Hp|p' b Hp|]; subst; cbn.
  - constructor. cbn. discriminate.
  - cbn in Hp. destruct Hp as [<-|[<-|[<-|[<-|[<-|[<-|[]]]]]]]; constructor; cbn; discriminate.
  - destruct p; cbn in Hp; try discriminate; constructor.
  - destruct Hp as [-> | ->]; constructor.
  - destruct Hp as [-> | ->]; constructor.
  - constructor.
Qed.

Section Code.
  (** whether there may be members that are not described *)
  Variable loose : Prop.
  Variable E : env.
  (** the values accepted for the types one level down *)
  Variable P : ty -> json -> Prop.

  (** no property of that name *)
  Definition without_property (tag : str) (m : model) : Prop :=
    exists o, object_of m = Some o /\ bm_get tag (mo_properties o) = None.

  Definition tag_free (c : mcode) (tag : str) : Prop :=
    match c with
    | McSchemaWith t _ => forall cx m cx', schema_returns E t cx m cx' -> without_property tag m
    | McModel _ (DcSingle _ (TcObject stmts)) => ~ In tag (map (fun s => fst (fst s)) stmts)
    | _ => False
    end.

  Definition jconst (c : const_desc) (j : json) : Prop :=
    match c, j with
    | CdString s, JStr x => forall vs, mst_variants s = Some vs -> In x vs
    | CdNumber _, JInt _ | CdNumber _, JFloat _ | CdInteger _, JInt _ | CdBoolean, JBool _ => True
    | _, _ => False
    end.

  Fixpoint jr (c : rcode) (j : json) : Prop :=
    match c with
    | RcAny => True
    | RcInline c' => jm c' j
    | RcMention t _ p => harmless p /\ P t j
    | RcTagged c' tag v _ _ => tag_free c' tag /\
        match j with
        | JObj ((k, JStr x) :: l) => k = tag /\ x = v /\ jm c' (JObj l) /\ ~ In tag (keys l)
        | _ => False
        end
    end
  with jm (c : mcode) (j : json) : Prop :=
    match c with
    | McSchemaWith t p => harmless p /\ P t j
    | McModel _ d => jd d j
    end
  with jd (c : dcode) (j : json) : Prop :=
    match c with
    | DcOneOf l => fold_right (fun c' acc => jr c' j \/ acc) False l
    | DcSingle n t => match j with JNull => n = true \/ jt t j | _ => jt t j end
    end
  with jt (c : tcode) (j : json) : Prop :=
    match c, j with
    | TcConst c', _ => jconst c' j
    | TcArray c', JArr l => forall j', In j' l -> jr c' j'
    | TcObject stmts, JObj l => (forall k, In k (keys l) -> In k (map (fun s => fst (fst s)) stmts) \/ loose) /\
        fold_right (fun s acc => let '(n, c', req) := s in
          ((req = true -> In n (keys l)) /\ forall j', In (n, j') l -> jr c' j') /\ acc) True stmts
    | TcDict c', JObj l => forall k j', In (k, j') l -> jr c' j'
    | _, _ => False
    end.

  Lemma jd_single n t j : jt t j -> jd (DcSingle n t) j.
  Proof. intros H. destruct j; cbn [jd]; auto. Qed.

  Lemma jd_oneof l j c : In c l -> jr c j -> jd (DcOneOf l) j.
  Proof. intros Hin H. cbn. induction l as [|a l IH]; [destruct Hin|]. cbn. destruct Hin as [->|Hin]; auto. Qed.
  Lemma jd_oneof_inv l j : jd (DcOneOf l) j -> exists c, In c l /\ jr c j.
  Proof.
    cbn. induction l as [|a l IH]; cbn; [intros []|]. intros [H|H]; [eauto|].
    destruct (IH H) as (c & Hc & Hj). eauto.
  Qed.

  Lemma jd_oneof_any l j : (exists c, In c l /\ jr c j) -> jd (DcOneOf l) j.
  Proof. intros (c & Hin & H). eapply jd_oneof; eauto. Qed.

  Lemma jt_object stmts l : (forall k, In k (keys l) -> In k (map (fun s => fst (fst s)) stmts) \/ loose) -> (forall n c req, In (n, c, req) stmts ->
      (req = true -> In n (keys l)) /\ forall j', In (n, j') l -> jr c j') -> jt (TcObject stmts) (JObj l).
  Proof.
    intros Hk H. cbn. split; [exact Hk|]. clear Hk. induction stmts as [|[[n c] req] stmts IH]; cbn; auto. split.
    - apply H. now left.
    - apply IH. intros n' c' req' Hin. apply H. now right.
  Qed.
End Code.

(** with fewer values for the types one level down *)
Lemma jr_impl loose E (P Q : ty -> json -> Prop) : (forall t j, P t j -> Q t j) ->
  (forall c j, jr loose E P c j -> jr loose E Q c j) /\ (forall c j, jm loose E P c j -> jm loose E Q c j) /\
  (forall c j, jd loose E P c j -> jd loose E Q c j) /\ (forall c j, jt loose E P c j -> jt loose E Q c j).
Proof.
  intros HPQ. apply code_ind.
  - intros j _. exact I.
  - intros c IH j H. change (jm loose E Q c j). apply IH. exact H.
  - intros t i p j [H1 H2]. split; auto.
  - intros c tag v id n IH j [H1 H2]. split; [exact H1|]. destruct j as [| | | | | |[|[k j0] l] ]; try now destruct H2.
    destruct j0; try now destruct H2. destruct H2 as (H2 & H3 & H4 & H5).
    split; [exact H2|]. split; [exact H3|]. split; [apply IH; exact H4|exact H5].
  - intros t p j [H1 H2]. split; auto.
  - intros d c IH j H. change (jd loose E Q c j). apply IH. exact H.
  - intros l IH j H. apply jd_oneof_inv in H as (c & Hc & Hj). rewrite Forall_forall in IH. eapply jd_oneof; eauto.
  - intros n c IH j H. destruct j; try (apply IH; exact H; fail). destruct H as [H|H]; [left; exact H|right; apply IH; exact H].
  - intros c j H. exact H.
  - intros c IH j H. destruct j; cbn in H |- *; try exact H. intros j' Hj'. apply IH. exact (H j' Hj').
  - intros stmts IH j H. destruct j as [| | | | | |l]; try exact H. cbn [jt] in *. destruct H as [H1 H2]. split; [exact H1|].
    clear H1. induction stmts as [|[ [n c] req] stmts IHs]; [exact I|]. inversion IH as [|? ? Hc Hr]; subst.
    cbn in H2 |- *. destruct H2 as [ [H2 H3] H4]. split; [split; [exact H2|]|now apply IHs]. intros j' Hj'. apply Hc. now apply H3.
  - intros c IH j H. destruct j; cbn in H |- *; try exact H. intros k j' Hj'. apply IH. exact (H k j' Hj').
Qed.

Section Run.
  Variable loose : Prop.
  Variables (E : env) (calls : list mention_call) (cx_end : components).
  Hypothesis Hun : names_unambiguous E (call_sites calls).
  Hypothesis Hret : mentions_return E calls cx_new cx_end.
  Notation roots := (call_sites calls).
  Notation S := (cx_schemas cx_end).

  (** [j] fits all schemas of [t] *)
  Definition sound (t : ty) (j : json) : Prop :=
    (exists s, visited E roots s /\ site_ty s = t) ->
    forall cx m cx', schema_returns E t cx m cx' -> meets_model loose S m j.

  Lemma mention_sound t i p cx r cx' j : visited E roots (SMention t i) -> harmless p ->
    mention_returns E t i p cx r cx' -> sound t j -> meets loose S r j.
  Proof.
    intros Hv Hp Hm Hs. assert (Hx : exists s, visited E roots s /\ site_ty s = t) by (eexists; split; [exact Hv|reflexivity]).
    rewrite mention_returns_iff in Hm. destruct (link_name E t i) as [n|] eqn:El.
    - destruct Hm as [-> _]. unfold link_name in El. destruct i; [discriminate|].
      assert (Hl : linked E roots t) by (split; [exact Hv|congruence]).
      destruct (links_lead_to_own_schema E _ _ _ _ Hun Hret Hl El) as (m & Hg & Hall).
      destruct (Hall cx) as [cx1 H1]. eapply mt_link; [exact Hg|]. eapply Hs; eauto.
    - destruct Hm as (m & Hm & ->). apply mt_inline. apply fits_apply; auto. eapply Hs; eauto.
  Qed.

  Lemma jr_sound_mention fuel t i p cx r cx' j : visited E roots (SMention t i) -> harmless p -> sound t j ->
    mention_schema E (get_schema E fuel) t i p cx = Ok (r, cx') -> meets loose S r j.
  Proof. intros Hv Hp Hs Hm. eapply mention_sound; eauto. exists fuel. exact Hm. Qed.

  Lemma eval_vec_In {A B} (f : A -> components -> res (B * components)) l : forall cx rs cx' a,
    eval_vec f l cx = Ok (rs, cx') -> In a l -> exists r cx1 cx2, In r rs /\ f a cx1 = Ok (r, cx2).
  Proof.
    induction l as [|x l IH]; intros cx rs cx' a He Hin; [destruct Hin|]. cbn in He. fold (eval_vec f) in He. binds.
    destruct Hin as [->|Hin].
    - eexists _, _, _. split; [now left|eauto].
    - match goal with H : eval_vec f l _ = Ok _ |- _ => destruct (IH _ _ _ _ H Hin) as (r & c1 & c2 & Hr & Hf) end.
      exists r, c1, c2. split; [now right|exact Hf].
  Qed.

  Lemma eval_stmts_src (f : rcode -> components -> res (model_ref * components)) l : forall props req cx props' req' cx',
    eval_stmts f l props req cx = Ok (props', req', cx') ->
    (forall k r, bm_get k props' = Some r -> bm_get k props = Some r \/
       exists c b cx1 cx2, In (k, c, b) l /\ f c cx1 = Ok (r, cx2)) /\
    (forall k, In k req' -> In k req \/ exists c, In (k, c, true) l).
  Proof.
    induction l as [|[[n c] b] l IH]; intros props req cx props' req' cx' He.
    - cbn in He. injection He as <- <- <-. auto.
    - cbn in He. fold (eval_stmts f) in He. binds.
      match goal with H : eval_stmts f l _ _ _ = Ok _ |- _ => destruct (IH _ _ _ _ _ _ H) as [IH1 IH2] end. split.
      + intros k r Hk. destruct (IH1 k r Hk) as [Hk'|(c' & b' & c1 & c2 & Hin & Hf)].
        * destruct (str_eq_dec k n) as [->|Hne].
          -- rewrite bm_get_insert_eq in Hk'. injection Hk' as <-. right. exists c, b. eexists _, _. split; [now left|eauto].
          -- rewrite bm_get_insert_neq in Hk' by auto. auto.
        * right. exists c', b', c1, c2. split; [now right|auto].
      + intros k Hk. destruct (IH2 k Hk) as [Hk'|(c' & Hin)].
        * destruct b; [|auto]. apply in_app_iff in Hk' as [Hk'|[<-|[]]]; auto. right. exists c. now left.
        * right. exists c'. now right.
  Qed.

  Lemma eval_stmts_all (f : rcode -> components -> res (model_ref * components)) l : forall props req cx props' req' cx',
    eval_stmts f l props req cx = Ok (props', req', cx') ->
    forall k, bm_get k props <> None \/ In k (map (fun s => fst (fst s)) l) -> bm_get k props' <> None.
  Proof.
    induction l as [|[[n c] b] l IH]; intros props req cx props' req' cx' He k Hk.
    - cbn in He. injection He as <- <- <-. destruct Hk as [Hk|[] ]. exact Hk.
    - cbn in He. fold (eval_stmts f) in He. binds.
      match goal with H : eval_stmts f l _ _ _ = Ok _ |- _ => apply (IH _ _ _ _ _ _ H) end.
      destruct (str_eq_dec k n) as [->|Hne]; [left; now rewrite bm_get_insert_eq|].
      destruct Hk as [Hk|[Hk|Hk] ]; [left; now rewrite bm_get_insert_neq|now destruct Hne|now right].
  Qed.

  (** adding the tag to an object without such a property *)
  Lemma tag_fits m tag v id n l : without_property tag m -> meets_model loose S m (JObj l) -> ~ In tag (keys l) ->
    meets_model loose S (fst (try_merge m (tag_model tag v id n))) (JObj ((tag, JStr v) :: l)).
  Proof.
    intros (o & Ho & Hg) Hv Hk. destruct m as [d [ [b [s|s|s| |r|[props add req] ] ] |l0|l0|l0] ]; try discriminate.
    cbn in Ho. injection Ho as <-. cbn [mo_properties] in Hg.
    inversion Hv as [| | | | | | |? ? ? ? ? ? Hreq Hpr Hall Had| | |]; subst.
    unfold try_merge. cbn -[bm_insert bm_mem merge_props]. unfold tag_model, mk_single. cbn -[bm_mem].
    assert (Hmem : bm_mem tag props = false) by (unfold bm_mem; now rewrite Hg).
    rewrite Hmem. cbn -[bm_insert]. constructor.
    - intros k Hin. apply in_app_iff in Hin as [Hin|[<-|[]]]; [right; now apply Hreq|now left].
    - intros k j r [[= <- <-]|Hin] Hr.
      + rewrite bm_get_insert_eq in Hr. injection Hr as <-. apply mt_inline. constructor. cbn. intros vs [= <-]. now left.
      + assert (Hne : k <> tag). { intros ->. apply Hk. unfold keys. apply in_map_iff. exists (tag, j). auto. }
        rewrite bm_get_insert_neq in Hr by auto. eapply Hpr; eauto.
    - intros k j [[= <- <-]|Hin] Hr.
      + rewrite bm_get_insert_eq in Hr. discriminate.
      + assert (Hne : k <> tag). { intros ->. apply Hk. unfold keys. apply in_map_iff. exists (tag, j). auto. }
        rewrite bm_get_insert_neq in Hr by auto. eapply Hall; eauto.
    - intros k j r [[= <- <-]|Hin] Hr.
      + rewrite bm_get_insert_eq in Hr. discriminate.
      + assert (Hne : k <> tag). { intros ->. apply Hk. unfold keys. apply in_map_iff. exists (tag, j). auto. }
        rewrite bm_get_insert_neq in Hr by auto. eapply Had; eauto.
  Qed.

  Lemma object_without_tag fuel d b stmts tag cx m cx' : ~ In tag (map (fun s : str * rcode * bool => fst (fst s)) stmts) ->
    eval_m E (get_schema E fuel) (McModel d (DcSingle b (TcObject stmts))) cx = Ok (m, cx') -> without_property tag m.
  Proof.
    intros Hn He. rewrite em_model, ed_single, et_object in He. binds. destruct p as [props req]. binds.
    exists (MObject props None req). split; [reflexivity|]. cbn.
    match goal with H : eval_stmts _ _ _ _ _ = Ok _ |- _ => destruct (eval_stmts_src _ _ _ _ _ _ _ _ H) as [Hs _] end.
    destruct (bm_get tag props) as [r|] eqn:Eg; auto.
    destruct (Hs _ _ Eg) as [Hx|(c & b' & ? & ? & Hin & _)]; [discriminate|].
    destruct Hn. apply in_map_iff. exists (tag, c, b'). auto.
  Qed.

  Lemma sites_In {A} (f : A -> list site) a l s : In a l -> In s (f a) -> In s (flat_map f l).
  Proof. intros. apply in_flat_map. eauto. Qed.

  Section Eval.
    Variable fuel : nat.
    Notation gs := (get_schema E fuel).

    Lemma code_sound :
      (forall c cx r cx' j, (forall s, In s (sites_r c) -> visited E roots s) ->
         eval_r E gs c cx = Ok (r, cx') -> jr loose E sound c j -> meets loose S r j) /\
      (forall c cx m cx' j, (forall s, In s (sites_m c) -> visited E roots s) ->
         eval_m E gs c cx = Ok (m, cx') -> jm loose E sound c j -> meets_model loose S m j) /\
      (forall c d cx x cx' j, (forall s, In s (sites_d c) -> visited E roots s) ->
         eval_d E gs c cx = Ok (x, cx') -> jd loose E sound c j -> meets_model loose S (Model d x) j) /\
      (forall c d n cx x cx' j, (forall s, In s (sites_t c) -> visited E roots s) ->
         eval_t E gs c cx = Ok (x, cx') -> jt loose E sound c j -> meets_model loose S (Model d (Single (MType n x))) j).
    Proof.
      apply code_ind.
      - intros cx r cx' j _ He _. rewrite er_any in He. injection He as <- <-. constructor.
      - intros c IH cx r cx' j Hs He Hj. rewrite er_inline in He. binds. apply mt_inline. eapply IH; eauto.
      - intros t i p cx r cx' j Hs He [Hp Hj]. rewrite er_mention in He.
        eapply jr_sound_mention; eauto. apply Hs. now left.
      - intros c tag v id n IH cx r cx' j Hs He [Htag Hj]. rewrite er_tagged in He. binds.
        destruct j as [| | | | | |[|[k j0] l] ]; try now destruct Hj. destruct j0; try now destruct Hj.
        destruct Hj as (-> & -> & Hj & Hk). apply mt_inline. apply tag_fits; auto; [|eapply IH; eauto].
        destruct c as [t p|d [l0|b [c0|c0|stmts|c0] ] ]; cbn in Htag; try now destruct Htag.
        + rewrite em_with in *. binds.
          match goal with H : get_schema _ _ _ _ = Ok (?a, _) |- _ => rename a into m0; destruct (Htag _ _ _ (ex_intro _ fuel H)) as (o & Ho & Hg) end.
          exists o. split; auto. destruct m0 as [d0 [ [b0 [s|s|s| |r0|o0] ] |l0|l0|l0] ]; try discriminate. exact Ho.
        + eapply object_without_tag; eauto.
      - intros t p cx m cx' j Hs He [Hp Hj]. rewrite em_with in He. binds.
        apply fits_apply; auto. eapply Hj; [|eexists; eauto]. exists (SCall t). split; [apply Hs; now left|reflexivity].
      - intros d c IH cx m cx' j Hs He Hj. rewrite em_model in He. binds. eapply IH; eauto.
      - intros l IH d cx x cx' j Hs He Hj. rewrite ed_oneof in He. binds.
        apply jd_oneof_inv in Hj as (c & Hin & Hj).
        match goal with H : eval_vec _ _ _ = Ok _ |- _ => destruct (eval_vec_In _ _ _ _ _ _ H Hin) as (r & c1 & c2 & Hr & Hf) end.
        eapply mm_oneof; [exact Hr|]. rewrite Forall_forall in IH. eapply (IH c Hin); [|exact Hf|exact Hj].
        intros s Hx. apply Hs. cbn [sites_d]. eapply sites_In; eauto.
      - intros n c IH d cx x cx' j Hs He Hj. rewrite ed_single in He. binds.
        destruct j; try (eapply IH; eauto; fail). destruct Hj as [->|Hj]; [constructor|eapply IH; eauto].
      - intros c d n cx x cx' j _ He Hj. rewrite et_const in He. injection He as <- <-.
        destruct c, j; cbn in Hj; try (now destruct Hj); cbn [const_td]; constructor; auto.
      - intros c IH d n cx x cx' j Hs He Hj. rewrite et_array in He. binds.
        destruct j as [| | | | |l| ]; try contradiction. constructor. intros j' Hin.
        eapply IH; [exact Hs|eassumption|]. exact (Hj j' Hin).
      - intros stmts IH d n cx x cx' j Hs He Hj. rewrite et_object in He. binds. destruct p as [props req]. binds.
        destruct j as [| | | | | |l]; try contradiction.
        match goal with H : eval_stmts _ _ _ _ _ = Ok _ |- _ => destruct (eval_stmts_src _ _ _ _ _ _ _ _ H) as [Hsrc Hreq];
          pose proof (eval_stmts_all _ _ _ _ _ _ _ _ H) as Hnames end.
        assert (Hall : forall k c b, In (k, c, b) stmts -> (b = true -> In k (keys l)) /\ forall j', In (k, j') l -> jr loose E sound c j').
        { destruct Hj as [_ Hj]. clear -Hj. cbn in Hj. induction stmts as [|[[k0 c0] b0] stmts IHs]; intros k c b Hin; [destruct Hin|].
          cbn in Hj. destruct Hj as [Hj1 Hj2]. destruct Hin as [[= <- <- <-]|Hin]; [exact Hj1|eapply IHs; eauto]. }
        constructor.
        + intros k Hk. destruct (Hreq k Hk) as [[]|(c & Hin)]. now apply (Hall _ _ _ Hin).
        + intros k j' r Hin Hr. destruct (Hsrc _ _ Hr) as [Hx|(c & b & c1 & c2 & Hc & Hf)]; [discriminate|].
          rewrite Forall_forall in IH. eapply (IH _ Hc); [|exact Hf|].
          * intros s Hx. apply Hs. cbn [sites_t]. apply in_flat_map. exists (k, c, b). auto.
          * now apply (proj2 (Hall _ _ _ Hc)).
        + intros k j' Hin Hr. destruct (proj1 Hj k) as [Hk|Hk]; [unfold keys; apply in_map_iff; exists (k, j'); auto| |now right].
          exfalso. apply (Hnames k); [now right|exact Hr].
        + discriminate.
      - intros c IH d n cx x cx' j Hs He Hj. rewrite et_dict in He. binds.
        destruct j as [| | | | | |l]; try contradiction. constructor; [intros k []|discriminate|left; discriminate|].
        intros k j r Hin _ [= <-]. eapply IH; [exact Hs|eassumption|]. exact (Hj k j Hin).
    Qed.
  End Eval.

  (** a derived type's schema, through its code *)
  Lemma named_sound id j : jm loose E sound (td_body (E id)) j -> sound (TNamed id) j.
  Proof.
    intros Hj (s & Hv & Ht) cx m cx' Hr. apply returns_body in Hr as [fuel He].
    eapply (proj1 (proj2 (code_sound fuel))); eauto. intros s' Hs'. eapply vis_step; [exact Hv|]. rewrite Ht. exact Hs'.
  Qed.
End Run.
