(** Facts about describe_type!, and about the builder methods of operations. *)
From Verif Require Import ApiSpec ApiFacts ApiFacts2 ApiFacts3 ApiFacts4 ApiFacts5 SchemaFacts SerFacts GenFacts2 SerFacts2 SerFacts3 SerFacts4.
Local Open Scope string_scope. Local Open Scope list_scope.
Local Opaque bm_insert.

Section DescribeInd.
  Variable P : describe -> Prop.
  Variable Q : describe_value -> Prop.
  Hypothesis Hm : forall m, P (DtRawModel m).
  Hypothesis Ht : forall d x, P (DtRawType d x).
  Hypothesis Hs : forall d f e v, P (DtString d f e v).
  Hypothesis Hn : forall d f e, P (DtNumber d f e).
  Hypothesis Hi : forall d f e, P (DtInteger d f e).
  Hypothesis Hb : forall d, P (DtBoolean d).
  Hypothesis Ha : forall d v, Q v -> P (DtArray d v).
  Hypothesis Ho : forall d ps, (forall k b v, In (k, b, v) ps -> Q v) -> P (DtObject d ps).
  Hypothesis Hl : forall l, Q (DvLink l).
  Hypothesis Hd : forall d, P d -> Q (DvInline d).
  Lemma object_case d ps : Forall (fun e => Q (snd e)) ps -> P (DtObject d ps).
  Proof. intros H. apply Ho. intros k b v Hi0. rewrite Forall_forall in H. apply (H _ Hi0). Qed.
  Fixpoint describe_ind' (d : describe) : P d :=
    match d with
    | DtRawModel m => Hm m
    | DtRawType x y => Ht x y
    | DtString x f e v => Hs x f e v
    | DtNumber x f e => Hn x f e
    | DtInteger x f e => Hi x f e
    | DtBoolean x => Hb x
    | DtArray x v => Ha x v (describe_value_ind' v)
    | DtObject x ps =>
        object_case x ps ((fix go (l : list (str * bool * describe_value)) : Forall (fun e => Q (snd e)) l :=
          match l with [] => Forall_nil _ | e :: l' => Forall_cons e (describe_value_ind' (snd e)) (go l') end) ps)
    end
  with describe_value_ind' (v : describe_value) : Q v :=
    match v with DvLink l => Hl l | DvInline d => Hd d (describe_ind' d) end.
End DescribeInd.

Definition pv (e : str * bool * describe_value) : str * model_ref := (fst (fst e), describe_value_ref (snd e)).
Lemma add_properties_eq l : forall p r, add_properties l p r =
  (fold_left (fun m e => bm_insert (fst e) (snd e) m) (map (fun e => (fst (fst e), snd e)) l) p,
   r ++ map (fun e => fst (fst e)) (filter (fun e => snd (fst e)) l)).
Proof.
  induction l as [|[[k b] v] l IH]; intros p r; cbn; [now rewrite app_nil_r|]. rewrite IH. destruct b; cbn; [now rewrite <- app_assoc|reflexivity].
Qed.
Definition required_names (l : list (str * bool * describe_value)) : list str := map (fun e => fst (fst e)) (filter (fun e => snd (fst e)) l).
Lemma describe_object desc l : describe_type (DtObject desc l) = mk_single desc false (TdObject (MObject (declare (map pv l)) None (required_names l))).
Proof.
  cbn [describe_type]. rewrite add_properties_eq. cbn [app]. unfold declare. f_equal. f_equal. f_equal.
  - now rewrite map_map.
  - unfold required_names. induction l as [|[[k b] v] l IH]; cbn; [reflexivity|]. destruct b; cbn; now rewrite IH.
Qed.
Lemma describe_object_property desc l k : property_of (describe_type (DtObject desc l)) k =
  match last_with (fun e => fst (fst e)) k l with Some e => Some (describe_value_ref (snd e)) | None => None end.
Proof.
  rewrite describe_object. unfold property_of, object_of, mk_single, m_data, mo_properties.
  pose proof (declare_last (fun e : str * bool * describe_value => fst (fst e)) (fun d e => e = pv d) l (map pv l) k) as H.
  assert (Hf : Forall2 (fun d e => e = pv d) l (map pv l)) by (clear; induction l; constructor; auto).
  specialize (H Hf ltac:(intros d e _ ->; reflexivity)). destruct (last_with (fun e => fst (fst e)) k l) as [e|]; [|exact H].
  destruct H as (v & -> & H). apply (f_equal snd) in H. cbn in H. now rewrite H.
Qed.

Lemma describe_links l : (forall d, occurs_in l (describe_type d) -> written l d) /\ (forall v, occurs l (describe_value_ref v) -> written_value l v).
Proof.
  assert (G : forall d, occurs_in l (describe_type d) -> written l d).
  { apply (describe_ind' (fun d => occurs_in l (describe_type d) -> written l d) (fun v => occurs l (describe_value_ref v) -> written_value l v)).
    - intros m H. now constructor.
    - intros d x H. now constructor.
    - intros d f e v (r & Hc & _). inversion Hc.
    - intros d f e (r & Hc & _). inversion Hc.
    - intros d f e (r & Hc & _). inversion Hc.
    - intros d (r & Hc & _). inversion Hc.
    - intros d v IH (r & Hc & Ho). inversion Hc; subst. constructor. now apply IH.
    - intros d ps IH (r & Hc & Ho). rewrite describe_object in Hc. inversion Hc; subst.
      match goal with H : In _ (declare _) |- _ => apply declare_In in H; apply in_map_iff in H; destruct H as ([[k0 b0] v0] & He & Hin) end.
      unfold pv in He; cbn in He. assert (Hr : describe_value_ref v0 = r) by congruence. subst r. eapply wr_property; [exact Hin|]. eapply IH; eassumption.
    - intros l0 H. inversion H; subst. constructor.
    - intros d IH H. constructor. apply IH. now apply occurs_inline. }
  split; [exact G|]. intros [l0|d] H.
  - inversion H; subst. constructor.
  - constructor. apply G. now apply occurs_inline.
Qed.

Lemma describe_not_nullable d : all_described d -> forall m, inside m (describe_type d) -> nullable_of m = Some false.
Proof.
  apply (describe_ind' (fun d => all_described d -> forall m, inside m (describe_type d) -> nullable_of m = Some false)
    (fun v => all_described_value v -> forall c, describe_value_ref v = Inline c -> forall m, inside m c -> nullable_of m = Some false)).
  - intros m H. inversion H.
  - intros d0 x H. inversion H.
  - intros d0 f e v _ m H. inversion H; subst; [reflexivity|]. match goal with H : child _ _ |- _ => inversion H end.
  - intros d0 f e _ m H. inversion H; subst; [reflexivity|]. match goal with H : child _ _ |- _ => inversion H end.
  - intros d0 f e _ m H. inversion H; subst; [reflexivity|]. match goal with H : child _ _ |- _ => inversion H end.
  - intros d0 _ m H. inversion H; subst; [reflexivity|]. match goal with H : child _ _ |- _ => inversion H end.
  - intros d0 v IH Ha m H. inversion Ha; subst. inversion H; subst; [reflexivity|]. match goal with H : child _ _ |- _ => inversion H; subst end. eapply IH; eauto.
  - intros d0 ps IH Ha m H. inversion Ha as [| | | | |d1 ps1 Hps]; subst. inversion H as [|m0 c Hc Hin]; subst; [rewrite describe_object; reflexivity|].
    rewrite describe_object in Hc. inversion Hc; subst.
    match goal with H : In _ (declare _) |- _ => apply declare_In in H; apply in_map_iff in H; destruct H as ([[k0 b0] v0] & He & Hin') end.
    unfold pv in He; cbn in He. assert (Hr : describe_value_ref v0 = Inline c) by congruence. eapply IH; [exact Hin'|eapply Hps; exact Hin'|exact Hr|exact Hin].
  - intros l _ c H. discriminate.
  - intros d0 IH Ha c H m Hin. inversion Ha; subst. cbn in H. injection H as <-. eapply IH; eauto.
Qed.

Lemma last_with_nodup {X} (key : X -> str) l x : NoDup (map key l) -> In x l -> last_with key (key x) l = Some x.
Proof.
  unfold last_with. induction l as [|y l IH]; intros Hn Hi; [destruct Hi|]. cbn in Hn. inversion Hn as [|? ? Hy Hn']; subst. cbn [last_of]. destruct Hi as [->|Hi].
  - match goal with |- match ?e with _ => _ end = _ => destruct e as [z|] eqn:Ez end.
    + exfalso. change (last_with key (key x) l = Some z) in Ez. apply last_with_In in Ez. destruct Ez as [Hz Hk]. apply Hy. rewrite <- Hk. now apply in_map.
    + now rewrite (proj2 (kcmp_eq (key x) (key x)) eq_refl).
  - now rewrite IH.
Qed.
Lemma describe_links_back l : forall d, names_distinct d -> written l d -> occurs_in l (describe_type d).
Proof.
  apply (describe_ind' (fun d => names_distinct d -> written l d -> occurs_in l (describe_type d))
           (fun v => (forall x, v = DvInline x -> names_distinct x) -> written_value l v -> occurs l (describe_value_ref v))).
  - intros m _ H. now inversion H.
  - intros d x _ H. now inversion H.
  - intros d f e v _ H. inversion H.
  - intros d f e _ H. inversion H.
  - intros d f e _ H. inversion H.
  - intros d _ H. inversion H.
  - intros d v IH Hn H. inversion Hn; subst. inversion H; subst. eexists. split; [constructor|]. now apply IH.
  - intros d ps IH Hn H. inversion Hn as [| | | | | | |d0 ps0 Hnd Hx]; subst. inversion H as [| | |d1 ps1 k b v Hin Hw]; subst.
    pose proof (describe_object_property d ps k) as Hp.
    rewrite (last_with_nodup (fun e : str * bool * describe_value => fst (fst e)) ps (k, b, v) Hnd Hin : last_with _ k ps = _) in Hp. cbn [snd] in Hp.
    rewrite describe_object in *. unfold property_of, object_of, mk_single, m_data, mo_properties in Hp. exists (describe_value_ref v). split.
    + eapply ch_prop. apply bm_get_In. exact Hp.
    + eapply IH; [exact Hin| |exact Hw]. intros x ->. eapply Hx; exact Hin.
  - intros l0 _ H. inversion H; subst. constructor.
  - intros d IH Hn H. inversion H; subst. apply occurs_inline. apply IH; auto.
Qed.

(** ** Builder methods *)
Lemma call_changes c o : changes_only (call_setting c) o (call c o).
Proof. intros s Hs. destruct c, s; try reflexivity; now elim Hs. Qed.
Lemma call_last c c' o : call_setting c = call_setting c' -> call c' (call c o) = call c' o.
Proof. destruct c, c'; cbn; intros H; try discriminate; reflexivity. Qed.
Lemma call_commute c c' o : call_setting c <> call_setting c' -> call c (call c' o) = call c' (call c o).
Proof. destruct c, c'; cbn; intros H; try reflexivity; now elim H. Qed.
Lemma calls_app l l' o : calls (l ++ l') o = calls l' (calls l o).
Proof. unfold calls. apply fold_left_app. Qed.
Lemma calls_settings l o :
  op_summary (calls l o) = match last_of (fun c => match c with BcSummary s => Some s | _ => None end) l with Some s => Some s | None => op_summary o end /\
  op_id (calls l o) = match last_of (fun c => match c with BcId s => Some s | _ => None end) l with Some s => Some s | None => op_id o end /\
  op_description (calls l o) = match last_of (fun c => match c with BcDescription s => Some s | _ => None end) l with Some s => Some s | None => op_description o end /\
  op_deprecated (calls l o) = match last_of (fun c => match c with BcDeprecated s => Some s | _ => None end) l with Some s => s | None => op_deprecated o end /\
  op_body (calls l o) = match last_of (fun c => match c with BcBody s => Some s | _ => None end) l with Some s => Some s | None => op_body o end /\
  op_tags (calls l o) = op_tags o /\ op_security (calls l o) = op_security o /\ op_responses (calls l o) = op_responses o /\
  op_parameters (calls l o) = op_parameters o /\ op_callbacks (calls l o) = op_callbacks o.
Proof.
  induction l as [|c l IH] using rev_ind; [cbn; auto 12|]. rewrite calls_app, !last_of_app.
  destruct IH as (H1 & H2 & H3 & H4 & H5 & H6 & H7 & H8 & H9 & H10). cbn [calls fold_left last_of].
  destruct c; cbn; rewrite ?H1, ?H2, ?H3, ?H4, ?H5, ?H6, ?H7, ?H8, ?H9, ?H10; repeat split; reflexivity.
Qed.

(** what the simple forms emit *)
Lemma describe_simple d f e v :
  (let w := ser_model (describe_type (DtString d f e v)) in
   member "type" w = Some (VStr (u "string")) /\ member "description" w = option_map VStr d /\ member "format" w = option_map VStr f /\
   member "example" w = option_map VStr e /\ member "enum" w = option_map (fun l => VSeq (map VStr l)) v /\ member "nullable" w = None) /\
  (let w := ser_model (describe_type (DtNumber d f e)) in
   member "type" w = Some (VStr (u "number")) /\ member "description" w = option_map VStr d /\ member "format" w = option_map VStr f /\
   member "example" w = option_map VStr e /\ member "nullable" w = None) /\
  (let w := ser_model (describe_type (DtInteger d f e)) in
   member "type" w = Some (VStr (u "integer")) /\ member "description" w = option_map VStr d /\ member "format" w = option_map VStr f /\
   member "example" w = option_map VStr e /\ member "nullable" w = None) /\
  (let w := ser_model (describe_type (DtBoolean d)) in
   member "type" w = Some (VStr (u "boolean")) /\ member "description" w = option_map VStr d /\ member "nullable" w = None).
Proof. destruct d, f, e, v; repeat (split; [repeat (split; [reflexivity|]); reflexivity|]); repeat (split; [reflexivity|]); reflexivity. Qed.
Lemma describe_array d v :
  let w := ser_model (describe_type (DtArray d v)) in
  member "type" w = Some (VStr (u "array")) /\ member "description" w = option_map VStr d /\ member "nullable" w = None /\
  member "items" w = Some (match v with DvLink l => VMap [(VStr (u "$ref"), VStr (u "#/components/schemas/" ++ l))] | DvInline x => ser_model (describe_type x) end).
Proof. destruct d, v; repeat (split; [reflexivity|]); reflexivity. Qed.
