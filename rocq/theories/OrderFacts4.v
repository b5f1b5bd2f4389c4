(** Facts for C80: an expression that panics; invocations for the examples. *)
From Coq Require Import List NArith Bool Permutation.
From Verif Require Import Conformance ApiExamples.
From Verif Require Import Str Doc Api Expand Trace OrderSpec OrderFacts OrderFacts2 OrderFacts3 ExpandExamples.
Import ListNotations.
Local Open Scope string_scope. Local Open Scope list_scope.

Lemma app_split {A} (h r a b : list A) e : h ++ r = a ++ e :: b -> (exists c, a = h ++ c) \/ (exists c, h = a ++ e :: c /\ b = c ++ r).
Proof.
  revert a. induction h as [|x h IH]; intros a H; [left; now exists a|].
  destruct a as [|y a]; cbn in H; injection H as -> H; [right; exists h; auto|].
  destruct (IH a H) as [[c ->]|(c & -> & ->)]; [left; now exists c|right; now exists c].
Qed.
Theorem trace_panics E fuel reason imported answer seg s x o h a e b : trace_api E fuel reason imported answer seg s x = (o, h) ->
  evaluated x = a ++ e :: b -> (forall sc, answer a e sc = None) -> (forall d, o <> Done d) /\ (exists rest, a ++ [e] = h ++ rest) /\ (h = a ++ [e] -> o = Panicked).
Proof.
  intros H Hx He. destruct (trace_prefix E fuel reason imported seg answer s x o h H) as (rest & H1 & H2 & H3 & H4). rewrite Hx in H1.
  enough (Hq : (forall d, o <> Done d) /\ exists rest, a ++ [e] = h ++ rest) by (destruct Hq; split; [assumption|]; split; [assumption|intros Hh; now apply (H4 a e)]). clear H4.
  destruct (app_split h rest a b e (eq_sym H1)) as [[c Ec]|(c & -> & ->)].
  - split; [|exists (c ++ [e]); now rewrite Ec, app_assoc]. intros d Hd. specialize (H2 d Hd). subst rest. rewrite app_nil_r in H1.
    destruct (H3 a e b (eq_sym H1)) as [sc Hs]; [right; now exists d|]. now rewrite He in Hs.
  - assert (Hc : c = []).
    { destruct c as [|y c]; [reflexivity|]. destruct (H3 a e (y :: c) eq_refl) as [sc Hs]; [left; discriminate|]. now rewrite He in Hs. }
    subst c. split; [|exists []; now rewrite app_nil_r]. intros d Hd. destruct (H3 a e [] eq_refl) as [sc Hs]; [right; now exists d|]. now rewrite He in Hs.
Qed.

(** [parameters: { (header "a"): { description: "b" } }] *)
Definition header_api : xapi := [XcPaths [XPathDecl hy_url [XvParameters [XdHeader (quoted "a") [XpDescription (quoted "b")]]]]].
(** [callbacks: { "cb": { (): { GET: { summary: "a" } } } }] *)
Definition literal_api : xapi :=
  [XcPaths [XPathDecl hy_url [XvMethod GET [XoCallbacks [XcLit (u "cb") [XPathDecl hy_url [XvMethod GET [XoSummary (quoted "a")]]]] false]]]].
(** the expressions say how many were evaluated before them *)
Definition counting : history -> uexpr -> scope -> option val := fun h _ _ => Some (XText (match h with [] => u "first" | _ => u "later" end)).
