(** Property C23: the where clause of the generated impl. *)
From Verif Require Import Attr AttrSpec Ast Derive DeriveSpec DeriveExamples Schema Gen GenSpec GenFacts Bound BoundSpec BoundFacts.

(** C23.  For every item the derive accepts (with its types interpreted in any way) there is an impl, and its
    generics are the one thing described by [impl_generics_are]: the parameters without defaults, the user's
    predicates, [T: OpgModel] for the type parameters standing in a serialised field, in order of declaration, and
    [T::A: OpgModel] for the serialised fields whose type is such a projection, in order. *)
Theorem C23_where_clause : forall pe pp uni ev h i g td, derive pe pp uni ev (input_map h i) = DOk td ->
  exists g', impl_generics pe pp uni i g = Some g' /\ forall g'', impl_generics_are pe pp i g g'' <-> g'' = g'.
Proof. exact where_clause. Qed.
Print Assumptions C23_where_clause.

(** A type parameter is bounded exactly if it stands in the type of a serialised field. *)
Theorem C23_bound_iff_mentioned : forall pe pp uni ev h i g td T, derive pe pp uni ev (input_map h i) = DOk td ->
  ~ In (PBound (RPath None false [(T, [])]) (u "_opg::OpgModel")) (g_where g) ->
  exists g', impl_generics pe pp uni i g = Some g' /\
    (In (PBound (RPath None false [(T, [])]) (u "_opg::OpgModel")) (g_where g') <->
     (exists b d, In (GType T b d) (g_params g)) /\ exists fs f, serialised_of pe pp i fs /\ In f fs /\ mentions T (fs_ty f)).
Proof. exact param_bound. Qed.
Print Assumptions C23_bound_iff_mentioned.

(** struct Generic<'a, T: Clone = u8, U, V, W> where U: Iterator
    { a: Vec<(i32, &'a T)>, b: U::Item, #[serde(skip)] c: V, d: PhantomData<V>, e: <W as Iterator>::Item } *)
Definition bare (s : string) : rty := RPath None false [(u s, [])].
Definition ex_fields : list (field_syn rty) :=
  [Build_field_syn [] (Some (u "a")) (RPath None false [(u "Vec", [RComposite [bare "i32"; RComposite [bare "T"]]])]);
   Build_field_syn [] (Some (u "b")) (RGroup (RPath None false [(u "U", []); (u "Item", [])]));
   Build_field_syn [serde_attr [word_item "skip"]] (Some (u "c")) (bare "V");
   Build_field_syn [] (Some (u "d")) (RPath None false [(u "PhantomData", [bare "V"])]);
   Build_field_syn [] (Some (u "e")) (RPath (Some (bare "W")) false [(u "Iterator", []); (u "Item", [])])].
Definition ex_generic : derive_input rty := Build_derive_input [] (u "Generic") (DaStruct (FNamed ex_fields)).
Definition ex_generics : generics :=
  {| g_params := [GLifetime (u "'a"); GType (u "T") (u "Clone") (Some (u "u8")); GType (u "U") [] None; GType (u "V") [] None;
                  GType (u "W") [] None];
     g_where := [PUser (u "U: Iterator")] |}.
Example C23_accepted : exists td, derive yes yes noupper same (input_map (fun _ => i32) ex_generic) = DOk td.
Proof. eexists. vm_compute. reflexivity. Qed.
Example C23_generics : impl_generics yes yes noupper ex_generic ex_generics = Some
  {| g_params := [GLifetime (u "'a"); GType (u "T") (u "Clone") None; GType (u "U") [] None; GType (u "V") [] None;
                  GType (u "W") [] None];
     g_where := [PUser (u "U: Iterator"); PBound (bare "T") (u "_opg::OpgModel"); PBound (bare "W") (u "_opg::OpgModel");
                 PBound (RPath None false [(u "U", []); (u "Item", [])]) (u "_opg::OpgModel")] |}.
Proof. vm_compute. reflexivity. Qed.
Example C23_not_in_user_clause : ~ In (PBound (bare "T") (u "_opg::OpgModel")) (g_where ex_generics).
Proof. cbn. intros [H|[]]. discriminate. Qed.

(** The bounds are not always sufficient.  struct Pair<T>(i32, #[serde(skip)] T): the generated code asks for the schema of
    [T] (it ends up in the components), yet nothing is required of [T]. *)
Definition ex_insufficient : derive_input rty := Build_derive_input [] (u "Pair") (DaStruct (FUnnamed
  [Build_field_syn [] None (bare "i32"); Build_field_syn [serde_attr [word_item "skip"]] None (bare "T")])).
Definition only_T : generics := {| g_params := [GType (u "T") [] None]; g_where := [] |}.
Definition T_is_secret (t : rty) : ty := match t with RPath None false [([84%N], [])] => TNamed 9 | _ => i32 end.
Definition td_insufficient : typedef := Eval vm_compute in
  match derive yes yes noupper same (input_map T_is_secret ex_insufficient) with DOk td => td | _ => td_secret end.
Definition env_insufficient : env := fun id => match id with O => td_insufficient | _ => td_secret end.
Theorem C23_bounds_sufficient_refuted : exists i g g' E m cx,
  derive yes yes noupper same (input_map T_is_secret i) = DOk (E 0) /\ T_is_secret (bare "T") = TNamed 9 /\
  td_ident (E 9) = u "Secret" /\ schema_returns E (TNamed 0) cx_new m cx /\ bm_mem (u "Secret") (cx_schemas cx) = true /\
  impl_generics yes yes noupper i g = Some g' /\ g_params g' = [GType (u "T") [] None] /\ g_where g' = [].
Proof.
  exists ex_insufficient, only_T, only_T, env_insufficient,
    (first_of (get_schema env_insufficient 10 (TNamed 0) cx_new)), (second_of (get_schema env_insufficient 10 (TNamed 0) cx_new)).
  split; [vm_compute; reflexivity|]. split; [reflexivity|]. split; [reflexivity|].
  split; [exists 10; vm_compute; reflexivity|]. split; vm_compute; auto.
Qed.
Print Assumptions C23_bounds_sufficient_refuted.

(** Nor always necessary.  struct Text<T> { #[opg(string)] value: T }: the generated code does not depend on [T], yet
    [T: OpgModel] is required. *)
Definition ex_unnecessary : derive_input rty := Build_derive_input [] (u "Text") (DaStruct (FNamed
  [Build_field_syn [opg_attr [word_item "string"]] (Some (u "value")) (bare "T")])).
Theorem C23_bounds_necessary_refuted : exists i g g' td,
  (forall h, derive yes yes noupper same (input_map h i) = DOk td) /\
  impl_generics yes yes noupper i g = Some g' /\ g_where g = [] /\ g_where g' = [PBound (bare "T") (u "_opg::OpgModel")].
Proof.
  exists ex_unnecessary, only_T, {| g_params := [GType (u "T") [] None]; g_where := [PBound (bare "T") (u "_opg::OpgModel")] |}.
  eexists. split; [intros h; vm_compute; reflexivity|]. vm_compute. auto.
Qed.
Print Assumptions C23_bounds_necessary_refuted.
