(** Concrete documents for the examples beside the theorems about serialisation. *)
From Coq Require Import Permutation.
From Verif Require Import SerSpec SerFacts SerFacts2 SerFacts3 SerFacts4.
Local Open Scope string_scope. Local Open Scope list_scope.

Definition ex_schema : model :=
  Model (Some (u "A user")) (Single (MType true (TdObject (MObject
    [(u "id", Inline (Model None (Single (MType false (TdInteger {| ms_format := Some (u "int64"); ms_example := None |})))));
     (u "tags", Inline (Model None (Single (MType false (TdArray (Link (u "Tag")))))))] None [u "tags"; u "id"])))).
Definition ex_tag : model := Model None (Single (MType false (TdString {| mst_variants := Some [u "a"; u "b"]; mst_data := {| ms_format := None; ms_example := None |} |}))).
Definition ex_param (i : parameter_in) : op_parameter :=
  {| pr_description := None; pr_in := i; pr_required := true; pr_deprecated := false; pr_schema := Some (Link (u "Tag")) |}.
Definition ex_inner : operation :=
  Build_operation_of [] None None (Some (u "notify")) false [] None [(200%N, {| rs_description := u "OK"; rs_schema := None |})] [] [].
Definition ex_op : operation :=
  Build_operation_of [u "user"; u "admin"] (Some (u "get it")) None None true [[(u "basicAuth", [])]]
    (Some {| rb_description := Some []; rb_required := true; rb_schema := Link (u "User") |})
    [(200%N, {| rs_description := u "OK"; rs_schema := Some (Link (u "User")) |}); (404%N, {| rs_description := u "Not Found"; rs_schema := None |})]
    [(u "limit", ex_param InQuery)]
    [(u "onEvent", Callback [([PePath (u "hook")], Build_path_value_of None None [(POST, ex_inner)] [])])].
Definition ex_value : path_value := Build_path_value_of (Some (u "users")) None [(GET, ex_op); (POST, ex_inner)] [(u "id", ex_param InPath)].
Definition ex_paths : list (path * path_value) := [([PePath (u "users"); PeParameter (u "id")], ex_value); ([PePath (u "users")], path_value_default)].
Definition ex_components : components :=
  {| cx_schemas := [(u "Tag", ex_tag); (u "User", ex_schema)]; cx_security := [(u "basicAuth", Http (Basic None))] |}.
Definition ex_doc_of (l : list (path * path_value)) : opg :=
  {| og_info := {| in_title := u "My API"; in_description := None; in_version := u "1" |}; og_tags := [(u "admin", {| tg_description := None |}); (u "user", {| tg_description := Some (u "Users") |})];
     og_servers := [{| sv_url := u "https://b"; sv_description := None |}; {| sv_url := u "https://a"; sv_description := None |}];
     og_paths := l; og_components := ex_components |}.
Definition ex_doc : opg := ex_doc_of ex_paths.

(** the lists of paths of this document *)
Lemma ex_within l : within ex_paths l -> l = ex_paths \/ l = [([PePath (u "hook")], Build_path_value_of None None [(POST, ex_inner)] [])].
Proof.
  induction 1 as [|l p v m o k c Hw IH H1 H2 H3]; [now left|]. right. destruct IH as [->| ->].
  - destruct H1 as [H1|[H1|[]]]; injection H1 as <- <-; [|destruct H2]. destruct H2 as [H2|[H2|[]]]; injection H2 as <- <-; [|destruct H3].
    destruct H3 as [H3|[]]. injection H3 as <- <-. reflexivity.
  - destruct H1 as [H1|[]]. injection H1 as <- <-. destruct H2 as [H2|[]]. injection H2 as <- <-. destruct H3.
Qed.
Lemma ex_has_path p v : has_path ex_paths p v ->
  p = [PePath (u "users"); PeParameter (u "id")] /\ v = ex_value \/ p = [PePath (u "users")] /\ v = path_value_default \/
  p = [PePath (u "hook")] /\ v = Build_path_value_of None None [(POST, ex_inner)] [].
Proof.
  intros (l & Hw & Hi). apply ex_within in Hw. destruct Hw as [->| ->].
  - destruct Hi as [Hi|[Hi|[]]]; injection Hi as <- <-; auto.
  - destruct Hi as [Hi|[]]. injection Hi as <- <-; auto.
Qed.
Lemma ex_has_operation o : has_operation ex_paths o -> o = ex_op \/ o = ex_inner.
Proof.
  intros (p & v & m & Hp & Hi). apply ex_has_path in Hp. destruct Hp as [(-> & ->)|[(-> & ->)|(-> & ->)]].
  - destruct Hi as [Hi|[Hi|[]]]; injection Hi as <- <-; auto.
  - destruct Hi.
  - destruct Hi as [Hi|[]]; injection Hi as <- <-; auto.
Qed.
Lemma ex_distinct : distinct_paths ex_paths.
Proof.
  intros l H. apply ex_within in H. destruct H as [->| ->]; apply nodupb_NoDup; reflexivity.
Qed.
Lemma plain_dec s : forallb (fun c => negb (N.eqb c SLASH || N.eqb c LBRACE || N.eqb c RBRACE)) s = true -> plain s.
Proof.
  rewrite forallb_forall. intros H. repeat split; intros Hi; apply H in Hi; discriminate.
Qed.
Lemma ex_plain : plain_paths ex_paths.
Proof.
  intros p v H. apply ex_has_path in H. destruct H as [(-> & _)|[(-> & _)|(-> & _)]]; intros e He;
    repeat (destruct He as [<-|He]; [apply plain_dec; reflexivity|]); destruct He.
Qed.
Lemma wf_model_schema : wf_model ex_schema.
Proof.
  constructor; [apply bm_sortedb_true; reflexivity|]. intros m' Hc. apply child_iff in Hc.
  destruct Hc as [[= <-]|[[= <-]|[]]]; (constructor; [exact I|]); intros m'' Hc; apply child_iff in Hc; cbn in Hc; intuition discriminate.
Qed.
Lemma wf_model_tag : wf_model ex_tag.
Proof. constructor; [exact I|]. intros m' Hc. apply child_iff in Hc. destruct Hc. Qed.
Lemma ex_wf : wf_opg ex_doc.
Proof.
  split; [apply bm_sortedb_true; reflexivity|]. split; [split|split].
  - intros p v H. apply ex_has_path in H. destruct H as [(_ & ->)|[(_ & ->)|(_ & ->)]];
      (split; [apply bm_sortedb_true; reflexivity|split; [apply bm_sortedb_true; reflexivity|]]); intros r [k a Hi Hr];
      repeat (destruct Hi as [[= <- <-]|Hi]; [injection Hr as <-; exact I|]); destruct Hi.
  - intros o H. apply ex_has_operation in H. destruct H as [->| ->].
    + split; [|repeat (split; [apply bm_sortedb_true; reflexivity|])].
      * intros s [<-|[]]. apply bm_sortedb_true; reflexivity.
      * intros r [k a Hi Hr|b Hb Hr|c s Hi Hr].
        -- destruct Hi as [[= <- <-]|[]]. injection Hr as <-. exact I.
        -- injection Hb as <-. subst r. exact I.
        -- destruct Hi as [[= <- <-]|[[= <- <-]|[]]]; [injection Hr as <-; exact I|discriminate].
    + split; [intros s []|]. repeat (split; [apply bm_sortedb_true; reflexivity|]).
      intros r [k a Hi Hr|b Hb Hr|c s Hi Hr]; [destruct Hi|discriminate|]. destruct Hi as [[= <- <-]|[]]. discriminate.
  - split; apply bm_sortedb_true; reflexivity.
  - intros k m [[= <- <-]|[[= <- <-]|[]]]; [apply wf_model_tag|apply wf_model_schema].
Qed.
Lemma ex_described : bodies_described ex_paths.
Proof. intros o b H Hb. apply ex_has_operation in H. destruct H as [->| ->]; [|discriminate]. injection Hb as <-. discriminate. Qed.

(** the same path twice *)
Definition ex_twice : opg := ex_doc_of [([PePath (u "users")], path_value_default); ([PePath (u "users")], path_value_default)].
Lemma ex_twice_wf : wf_opg ex_twice.
Proof.
  destruct ex_wf as (H1 & _ & H3). split; [exact H1|]. split; [|exact H3].
  assert (Hw : forall l, within (og_paths ex_twice) l -> l = og_paths ex_twice).
  { induction 1 as [|l p v m o k c Hw IH A1 A2 A3]; [reflexivity|]. subst. destruct A1 as [A1|[A1|[]]]; injection A1 as <- <-; destruct A2. }
  assert (Hp : forall p v, has_path (og_paths ex_twice) p v -> v = path_value_default).
  { intros p v (l & Hl & Hi). apply Hw in Hl. subst l. destruct Hi as [Hi|[Hi|[]]]; now injection Hi as <- <-. }
  split.
  - intros p v H. apply Hp in H. subst. split; [constructor|split; [constructor|]]. intros r [k a [] _].
  - intros o (p & v & m & H & Hi). apply Hp in H. subst. destruct Hi.
Qed.
Lemma ex_twice_dup : ~ distinct_paths (og_paths ex_twice).
Proof. intros H. specialize (H _ (wi_self _)). inversion H as [|x l Hx _ E]. apply Hx. left. reflexivity. Qed.

(** a body without description *)
Definition ex_null : opg :=
  ex_doc_of [([PePath (u "users")], Build_path_value_of None None
    [(POST, with_request_body {| rb_description := None; rb_required := true; rb_schema := Any |} operation_default)] [])].
