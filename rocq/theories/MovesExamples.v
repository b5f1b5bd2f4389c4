(** Examples for moves in the code of describe_api! (C87). *)
From Coq Require Import List NArith.
From Verif Require Import Str Schema Gen Doc Api Expand ExpandSpec Expected Conformance ApiExamples ExpandExamples Moves MovesSpec.
Import ListNotations.
Local Open Scope string_scope. Local Open Scope list_scope.

(** the expressions of the examples do nothing inside, and are the variables [given n] or constants *)
Definition ex_uses (e : uexpr) : list use := [].
Definition ex_alone (e : uexpr) : option str :=
  List.find (fun n => match e [(n, XNum 7)] with XNum _ => true | _ => false end)
    (map (fun n => u n) ["result"; "context"; "parameter"; "name"; "description"; "operation"; "security"; "schema"; "url"; "title"]).
Lemma ex_alone_given : ex_alone (given "parameter") = Some (u "parameter") /\ ex_alone (given "url") = Some (u "url") /\ ex_alone (quoted "t") = None.
Proof. repeat split; vm_compute; reflexivity. Qed.

(** the variables of [hy_scope]: references and truth values can be copied *)
Definition hy_vars : list (str * bool) :=
  map (fun b => (fst b, match snd b with XLit _ | XBool _ | XNum _ => true | _ => false end)) hy_scope.
(** [parameter] and [name] are texts used several times, by reference *)
Lemma hy_uses : api_uses ex_uses ex_alone hy_api =
  map Borrow [u "description"; u "context"] ++ [Take (u "result")] ++
  map Borrow [u "parameter"; u "name"; u "name"; u "context"; u "description"; u "parameter"] ++ [Take (u "schema"); Borrow (u "parameter")] ++
  [Take (u "operation"); Take (u "description"); Borrow (u "security"); Take (u "result")].
Proof. vm_compute. reflexivity. Qed.
Lemma hy_tidy : forall l, In (XcInfo l) hy_api -> info_tidy ex_uses ex_alone l.
Proof.
  intros l [[= <-]|H]; [|repeat destruct H as [H|H]; discriminate || contradiction]. split.
  - cbn. repeat constructor; cbn; intuition discriminate.
  - intros l1 p l2 q w El Hq Hw. destruct l1 as [|a [|b l1]]; [contradiction| |destruct l1; discriminate].
    cbn in El. injection El as <- <- <-. vm_compute in Hw. contradiction.
Qed.
Lemma hy_passes : passes ex_uses ex_alone small_seg hy_vars hy_api.
Proof. unfold passes. vm_compute. discriminate. Qed.

(** [servers: { url, url }] *)
Definition twice_api : xapi := [XcServers [(XtVar (u "url"), None); (XtVar (u "url"), None)]].
(** [tags: { a(url), b(url) }, servers: { url }] *)
Definition once_api : xapi := [XcTags [(u "a", Some (given "url")); (u "b", Some (given "url"))]; XcServers [(XtVar (u "url"), None)]].
(** [servers: { url }, tags: { a(url) }] *)
Definition late_api : xapi := [XcServers [(XtVar (u "url"), None)]; XcTags [(u "a", Some (given "url"))]].
