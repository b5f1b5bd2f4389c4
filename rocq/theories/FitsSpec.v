(** Accepting JSON without anything that the schema does not mention. *)
From Verif Require Import Schema SchemaSpec Gen GenSpec SoundSpec.

(** As [valid] (SoundSpec.v), but each member of an object must be listed in [properties], or else described by
    [additionalProperties]: what a validator accepts that takes schemas to be complete. *)
Inductive fits (S : bmap str model) : model_ref -> json -> Prop :=
| ft_any j : fits S Any j
| ft_link n m j : bm_get n S = Some m -> fits_model S m j -> fits S (Link n) j
| ft_inline m j : fits_model S m j -> fits S (Inline m) j
with fits_model (S : bmap str model) : model -> json -> Prop :=
| fm_null d td : fits_model S (Model d (Single (MType true td))) JNull
| fm_string d n s x : (forall vs, mst_variants s = Some vs -> In x vs) ->
    fits_model S (Model d (Single (MType n (TdString s)))) (JStr x)
| fm_integer d n s z : fits_model S (Model d (Single (MType n (TdInteger s)))) (JInt z)
| fm_number_int d n s z : fits_model S (Model d (Single (MType n (TdNumber s)))) (JInt z)
| fm_number d n s x : fits_model S (Model d (Single (MType n (TdNumber s)))) (JFloat x)
| fm_boolean d n b : fits_model S (Model d (Single (MType n TdBoolean))) (JBool b)
| fm_array d n items l : (forall j, In j l -> fits S items j) ->
    fits_model S (Model d (Single (MType n (TdArray items)))) (JArr l)
| fm_object d n props add req l :
    (forall k, In k req -> In k (keys l)) ->
    (forall k j r, In (k, j) l -> bm_get k props = Some r -> fits S r j) ->
    (forall k j, In (k, j) l -> bm_get k props = None -> add <> None) ->
    (forall k j r, In (k, j) l -> bm_get k props = None -> add = Some r -> fits S r j) ->
    fits_model S (Model d (Single (MType n (TdObject (MObject props add req))))) (JObj l)
| fm_oneof d l r j : In r l -> fits S r j -> fits_model S (Model d (OneOf l)) j
| fm_anyof d l r j : In r l -> fits S r j -> fits_model S (Model d (AnyOf l)) j
| fm_allof d l j : (forall r, In r l -> fits S r j) -> fits_model S (Model d (AllOf l)) j.
