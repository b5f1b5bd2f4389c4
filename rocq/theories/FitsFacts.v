(** What fits is accepted. *)
From Verif Require Import Schema SchemaSpec Gen GenSpec SoundSpec FitsSpec.

Scheme fits_m := Minimality for fits Sort Prop
with fits_model_m := Minimality for fits_model Sort Prop.
Combined Scheme fits_both_ind from fits_m, fits_model_m.

Lemma fits_accepted S : (forall r j, fits S r j -> valid S r j) /\ (forall m j, fits_model S m j -> valid_model S m j).
Proof. apply fits_both_ind; intros; econstructor; eauto. Qed.
Lemma fits_valid S r j : fits S r j -> valid S r j.
Proof. apply fits_accepted. Qed.

(** between the two: members that the schema does not mention are accepted if [loose] *)
Inductive meets (loose : Prop) (S : bmap str model) : model_ref -> json -> Prop :=
| mt_any j : meets loose S Any j
| mt_link n m j : bm_get n S = Some m -> meets_model loose S m j -> meets loose S (Link n) j
| mt_inline m j : meets_model loose S m j -> meets loose S (Inline m) j
with meets_model (loose : Prop) (S : bmap str model) : model -> json -> Prop :=
| mm_null d td : meets_model loose S (Model d (Single (MType true td))) JNull
| mm_string d n s x : (forall vs, mst_variants s = Some vs -> In x vs) ->
    meets_model loose S (Model d (Single (MType n (TdString s)))) (JStr x)
| mm_integer d n s z : meets_model loose S (Model d (Single (MType n (TdInteger s)))) (JInt z)
| mm_number_int d n s z : meets_model loose S (Model d (Single (MType n (TdNumber s)))) (JInt z)
| mm_number d n s x : meets_model loose S (Model d (Single (MType n (TdNumber s)))) (JFloat x)
| mm_boolean d n b : meets_model loose S (Model d (Single (MType n TdBoolean))) (JBool b)
| mm_array d n items l : (forall j, In j l -> meets loose S items j) ->
    meets_model loose S (Model d (Single (MType n (TdArray items)))) (JArr l)
| mm_object d n props add req l :
    (forall k, In k req -> In k (keys l)) ->
    (forall k j r, In (k, j) l -> bm_get k props = Some r -> meets loose S r j) ->
    (forall k j, In (k, j) l -> bm_get k props = None -> add <> None \/ loose) ->
    (forall k j r, In (k, j) l -> bm_get k props = None -> add = Some r -> meets loose S r j) ->
    meets_model loose S (Model d (Single (MType n (TdObject (MObject props add req))))) (JObj l)
| mm_oneof d l r j : In r l -> meets loose S r j -> meets_model loose S (Model d (OneOf l)) j
| mm_anyof d l r j : In r l -> meets loose S r j -> meets_model loose S (Model d (AnyOf l)) j
| mm_allof d l j : (forall r, In r l -> meets loose S r j) -> meets_model loose S (Model d (AllOf l)) j.
Scheme meets_m := Minimality for meets Sort Prop
with meets_model_m := Minimality for meets_model Sort Prop.
Combined Scheme meets_both_ind from meets_m, meets_model_m.
Lemma meets_accepted loose S : (forall r j, meets loose S r j -> valid S r j) /\ (forall m j, meets_model loose S m j -> valid_model S m j).
Proof. apply meets_both_ind; intros; econstructor; eauto. Qed.
Lemma meets_valid loose S r j : meets loose S r j -> valid S r j.
Proof. apply meets_accepted. Qed.
Lemma strictly_fits S : (forall r j, meets False S r j -> fits S r j) /\ (forall m j, meets_model False S m j -> fits_model S m j).
Proof. apply meets_both_ind; intros; econstructor; eauto. intros k j Hin Hn. now destruct (H2 k j Hin Hn). Qed.
Lemma meets_fits S r j : meets False S r j -> fits S r j.
Proof. apply strictly_fits. Qed.
