(** Running the code of describe_api! (C77): sections, and the whole. *)
From Coq Require Import List NArith Bool PeanoNat Lia.
From Verif Require Import Str Api ApiFacts Expand ExpandSpec ExpandFacts ExpandFacts2 ExpandFacts3.
Import ListNotations.

Section Templates.
  Variable E : env.
  Variable fuel : nat.
  Variable reason : N -> option str.
  Variable imported : bool.
  Variable seg : list tree -> option segment.
  Notation run := (run E fuel reason imported).
  Notation eval := (eval E fuel reason imported).
  Notation R := (run_all run).
  Notation eval_var := (eval_var E fuel reason imported _ _ _).
  Notation eval_text := (eval_text E fuel reason imported _ _ _).

  (** ** Info: its variables have names of the caller *)
  Definition info_bind (p : info_prop) : ident * val :=
    match p with
    | IpTitle t => (Id (u "title") [], XText t)
    | IpVersion t => (Id (u "version") [], XText t)
    | IpDescription t => (Id (u "description") [], XOption (Some (XText t)))
    end.
  Definition info_fv (p : info_prop) : fname * val :=
    match p with
    | IpTitle t => (Ftitle, XText t) | IpVersion t => (Fversion, XText t) | IpDescription t => (Fdescription, XOption (Some (XText t)))
    end.
  Lemma info_lets s l l' : info_in_turn s l l' -> forall e, scope_of e = s ->
    R (map (fun p => SLet (Id (info_name p) []) (info_value p)) l) e = Done (rev (map info_bind l') ++ e).
  Proof.
    induction 1 as [s|s x t l l' Hx Hl IH|s x t l l' Hx Hl IH|s x t l l' Hx Hl IH]; intros e Hs; [reflexivity|..];
      subst s; cbn [map info_name info_value rev info_bind]; rewrite run_all_cons, run_let; unfold some; rewrite ?eval_con;
      rewrite (eval_text Hx); cbn [obind apply_con typed]; (rewrite IH; [now rewrite <- app_assoc|]); now rewrite scope_of_cons.
  Qed.
  Lemma info_fields s l l' : info_in_turn s l l' -> forall e, (forall p, In p l' -> lookup (fst (info_bind p)) e = Some (snd (info_bind p))) ->
    eval_fields eval (map (fun p => (info_field p, EVar (Id (info_name p) []))) l) e = Done (map info_fv l', e).
  Proof.
    induction 1 as [s|s x t l l' Hx Hl IH|s x t l l' Hx Hl IH|s x t l l' Hx Hl IH]; intros e He; [reflexivity|..];
      cbn [map info_name info_field info_fv]; rewrite fields_cons; pose proof (He _ (or_introl eq_refl)) as H0; cbn [info_bind fst snd] in H0; rewrite (eval_var H0); cbn [obind];
      (rewrite IH; [reflexivity|]); intros p Hp; apply He; now right.
  Qed.
  Lemma info_cases l i : exec_info l = Done i ->
    build NInfo (map info_fv l) = Some (XInfo i) /\
    forall e p, In p l -> lookup (fst (info_bind p)) (rev (map info_bind l) ++ e) = Some (snd (info_bind p)).
  Proof.
    destruct l as [|[] l]; [|destruct l as [|[] l]; [|destruct l as [|[] l]; [|destruct l as [|[] l]|destruct l as [|[] l]|destruct l as [|[] l]]..]..];
      intros H; unfold exec_info in H; cbn in H; repeat match type of H with context [flat_map ?f ?k] => destruct (flat_map f k) as [|? [|? ?]]; cbn in H; try discriminate H end; try discriminate H; injection H as <-; (split; [reflexivity|]); intros e p Hp; cbn in Hp; intuition subst; cbn [info_bind rev map app fst snd]; lk.
  Qed.
  Lemma assign_app_skip x v ls e : ~ In x (map fst ls) -> assign x v (ls ++ e) = ls ++ assign x v e.
  Proof.
    induction ls as [|[y w] ls IH]; cbn [app map fst]; intros H; [reflexivity|]. cbn [assign]. destruct (ident_eq_dec x y) as [->|]; [destruct H; now left|].
    f_equal. apply IH. intros Hi. apply H. now right.
  Qed.
  Lemma info_goes s l l' res d e (V : ident -> Prop) : info_in_turn s l l' -> marked res -> lookup res e = Some (XOpg d) -> scope_of e = s ->
    goes (fun y => y = res) V e (R (expand_info res l) e)
      (get i <- exec_info l';
       Done [(res, XOpg {| og_info := i; og_tags := og_tags d; og_servers := og_servers d; og_paths := og_paths d; og_components := og_components d |})]).
  Proof.
    intros Hl Hm Hr Hs. destruct (exec_info l') as [i| | |] eqn:Ei; [|unfold exec_info in Ei; repeat (destruct (once _) in Ei; try discriminate)..|exact I].
    apply info_cases in Ei as [Hb Hlk].
    unfold expand_info. rewrite run_one, run_block, run_all_app, (info_lets _ _ _ Hl _ Hs). cbn [obind].
    assert (Hsk : ~ In res (map fst (rev (map info_bind l')))).
    { intros Hi. apply in_map_iff in Hi as (b & <- & Hi). apply in_rev, in_map_iff in Hi as (p & <- & _). destruct p; now apply Hm. }
    rewrite run_one, run_set, eval_struct, (info_fields _ _ _ Hl _ (Hlk e)). cbn [obind]. rewrite Hb. cbn [typed obind].
    rewrite lookup_app_skip, Hr by auto. cbn [typed obind set_field]. rewrite assign_app_skip by auto.
    replace (leave e _) with (assign res (XOpg {| og_info := i; og_tags := og_tags d; og_servers := og_servers d; og_paths := og_paths d; og_components := og_components d |}) e).
    2: { unfold leave. rewrite app_length, length_assign, Nat.add_sub, skipn_app, skipn_all, Nat.sub_diag. reflexivity. }
    apply goes_sb; [now apply sb_assign|]. trk.
  Qed.

  (** ** Tags and servers *)
  Variable s : scope.
  Lemma eval_extract {A} (code : A -> rexpr) (rd : A -> str -> Prop) x x' e :
    (forall a t, rd a t -> eval (code a) e = Done (XText t, e)) -> reads_opt rd x x' ->
    eval (EExtract (option_map code x)) e = Done (XOption (option_map XText x'), e).
  Proof. intros H [|a t Ha]; [reflexivity|]. cbn [option_map Expand.eval]. now rewrite (H _ _ Ha). Qed.
  Lemma tags_section l l' res (V : ident -> Prop) : Forall2 (fun x a => fst x = fst a /\ reads_opt (shows s) (snd x) (snd a)) l l' -> marked res ->
    forall d e, lookup res e = Some (XOpg d) -> scope_of e = s ->
    goes (fun y => y = res) V e
      (R (map (fun t => SInsert res (Some Ftags) (lit (fst t)) (EStruct NTag [(Fdescription, EExtract (option_map text (snd t)))])) l) e)
      (Done [(res, XOpg {| og_info := og_info d; og_tags := fold_left (fun m t => bm_insert (fst t) {| tg_description := snd t |} m) l' (og_tags d);
                           og_servers := og_servers d; og_paths := og_paths d; og_components := og_components d |})]).
  Proof.
    intros Hl Hm. induction Hl as [|[n x] [n' x'] l l' [Hn Hx] Hl IH]; intros d e Hr Hs.
    - apply goes_done. destruct d. trk.
    - cbn [fst snd] in Hn, Hx. subst n'. cbn [map fst snd]. rewrite run_all_cons, run_insert, eval_lit. cbn [obind]. rewrite eval_struct, fields_cons.
      rewrite (eval_extract text (shows s) x x'); auto.
      2: { intros a t Ha. apply ExpandFacts2.eval_text. now rewrite Hs. }
      cbn [obind eval_fields]. replace (build NTag [(Fdescription, XOption (option_map XText x'))]) with (Some (XTag {| tg_description := x' |})) by now destruct x'.
      cbn [typed obind]. rewrite Hr. cbn [typed obind insert]. eapply goes_step; [now apply sb_assign with (x := res)|].
      cbn [fold_left fst snd].
      apply (IH {| og_info := og_info d; og_tags := bm_insert n {| tg_description := x' |} (og_tags d); og_servers := og_servers d;
                   og_paths := og_paths d; og_components := og_components d |}); [lk|]. now rewrite scope_assign.
  Qed.
  Lemma eval_server_text x t e : scope_of e = s -> reads_server_text s x t -> eval (server_text x) e = Done (XText t, e).
  Proof.
    intros Hs [t'|n v t' Hv Ht]; [reflexivity|]. cbn [server_text]. rewrite eval_to_string. cbn [Expand.eval]. rewrite lookup_var, Hs, Hv. cbn [typed obind].
    destruct Ht as [-> | ->]; reflexivity.
  Qed.
  Lemma servers_section l l' res (V : ident -> Prop) :
    Forall2 (fun x a => reads_server_text s (fst x) (fst a) /\ reads_opt (reads_server_text s) (snd x) (snd a)) l l' -> marked res ->
    forall d e, lookup res e = Some (XOpg d) -> scope_of e = s ->
    goes (fun y => y = res) V e
      (R (map (fun s => SPush res (Some Fservers)
           (EStruct NServer [(Furl, server_text (fst s)); (Fdescription, EExtract (option_map server_text (snd s)))])) l) e)
      (Done [(res, XOpg {| og_info := og_info d; og_tags := og_tags d;
                           og_servers := og_servers d ++ map (fun s => {| sv_url := fst s; sv_description := snd s |}) l';
                           og_paths := og_paths d; og_components := og_components d |})]).
  Proof.
    intros Hl Hm. induction Hl as [|[n x] [n' x'] l l' [Hn Hx] Hl IH]; intros d e Hr Hs.
    - apply goes_done. cbn [map]. rewrite app_nil_r. destruct d. trk.
    - cbn [fst snd] in Hn, Hx. cbn [map fst snd]. rewrite run_all_cons, run_push, eval_struct, fields_cons, (eval_server_text _ _ _ Hs Hn). cbn [obind].
      rewrite fields_cons, (eval_extract server_text (reads_server_text s) x x'); auto.
      2: { intros a t Ha. now apply eval_server_text. }
      cbn [obind eval_fields].
      replace (build NServer [(Furl, XText n'); (Fdescription, XOption (option_map XText x'))]) with (Some (XServer {| sv_url := n'; sv_description := x' |})) by now destruct x'.
      cbn [typed obind]. rewrite Hr. cbn [typed obind push]. eapply goes_step; [now apply sb_assign with (x := res)|].
      assert (Ea : og_servers d ++ {| sv_url := n'; sv_description := x' |} :: map (fun s0 => {| sv_url := fst s0; sv_description := snd s0 |}) l' =
                   (og_servers d ++ [{| sv_url := n'; sv_description := x' |}]) ++ map (fun s0 => {| sv_url := fst s0; sv_description := snd s0 |}) l')
        by now rewrite <- app_assoc.
      rewrite Ea.
      apply (IH {| og_info := og_info d; og_tags := og_tags d; og_servers := og_servers d ++ [{| sv_url := n'; sv_description := x' |}];
                   og_paths := og_paths d; og_components := og_components d |}); [lk|]. now rewrite scope_assign.
  Qed.

  (** ** Security schemes *)
  Definition enc_http (sch bf ds : ident) (st : option http_kind * option str * option str) (_ : components) : list (ident * val) :=
    let '(k, f, a) := st in
    [(sch, match k with Some k => XKind k | None => XMissing end); (bf, XOption (option_map XText f)); (ds, XOption (option_map XText a))].
  Definition enc_key (pin nm ds : ident) (st : parameter_in * option str * option str) (_ : components) : list (ident * val) :=
    let '(i, n, a) := st in
    [(pin, XIn i); (nm, match n with Some n => XText n | None => XMissing end); (ds, XOption (option_map XText a))].
  Lemma exec_pure {X S} (f : X -> S -> S) l st cx : exec_list (fun p st cx => Done (f p st, cx)) l st cx = Done (fold_left (fun st p => f p st) l st, cx).
  Proof. revert st. induction l as [|x l IH]; intros st; [reflexivity|]. cbn. apply IH. Qed.
  Lemma http_prop_goes sch bf ds (V : ident -> Prop) p p' st cx e : sch <> bf -> sch <> ds -> bf <> ds -> marked sch -> ~ V sch -> 
    reads_http_prop s p p' -> tracks (enc_http sch bf ds st cx) e -> scope_of e = s ->
    goes (fun y => y = ds \/ y = bf) V e (R [expand_http_prop sch bf ds p] e) (omap (enc_http sch bf ds) (Done (http_step p' st, cx))).
  Proof.
    intros H1 H2 H3 Hm Hv Hp Ht Hs. destruct st as [[k f] a]. cbn in Ht. trk_in Ht. rewrite run_one.
    destruct Hp as [k'|x t Hx|x t Hx]; cbn [expand_http_prop http_step omap obind fst snd enc_http].
    - rewrite run_let, eval_val. cbn [obind]. eexists [(sch, XKind k')], e. split; [reflexivity|]. split; [apply sb_refl|]. split; [auto|]. cbn [app]. trk.
    - rewrite run_assign. unfold some. rewrite eval_con, ExpandFacts2.eval_text with (t := t) by now rewrite Hs. cbn [obind apply_con typed]. rewrite H0. cbn [typed obind].
      apply goes_sb; [apply sb_assign; auto|]. cbn [option_map]. trk.
    - rewrite run_assign. unfold some. rewrite eval_con, ExpandFacts2.eval_text with (t := t) by now rewrite Hs. cbn [obind apply_con typed]. rewrite H4. cbn [typed obind].
      apply goes_sb; [apply sb_assign; auto|]. cbn [option_map]. trk.
  Qed.
  Lemma key_prop_goes pin nm ds (V : ident -> Prop) p p' st cx e : pin <> nm -> pin <> ds -> nm <> ds -> marked nm -> ~ V nm -> 
    reads_key_prop s p p' -> tracks (enc_key pin nm ds st cx) e -> scope_of e = s ->
    goes (fun y => y = ds \/ y = pin) V e (R [expand_key_prop pin nm ds p] e) (omap (enc_key pin nm ds) (Done (key_step p' st, cx))).
  Proof.
    intros H1 H2 H3 Hm Hv Hp Ht Hs. destruct st as [[k f] a]. cbn in Ht. trk_in Ht. rewrite run_one.
    destruct Hp as [k'|x t Hx|x t Hx]; cbn [expand_key_prop key_step omap obind fst snd enc_key].
    - rewrite run_assign, eval_val. cbn [obind]. rewrite H. cbn [typed obind]. apply goes_sb; [apply sb_assign; auto|]. trk.
    - rewrite run_let, ExpandFacts2.eval_text with (t := t) by now rewrite Hs. cbn [obind].
      eexists [(nm, XText t)], e. split; [reflexivity|]. split; [apply sb_refl|]. split; [auto|]. cbn [app]. trk.
    - rewrite run_assign. unfold some. rewrite eval_con, ExpandFacts2.eval_text with (t := t) by now rewrite Hs. cbn [obind apply_con typed]. rewrite H4. cbn [typed obind].
      apply goes_sb; [apply sb_assign; auto|]. cbn [option_map]. trk.
  Qed.

  Definition enc_res (d : opg) (res : ident) (_ : unit) (cx : components) : list (ident * val) := [(res, XOpg (put_cx d cx))].
  Lemma scheme_goes mk x x' d res cx e (V : ident -> Prop) : mk <> [] -> marked res -> V res -> (forall y, V y -> fresh mk y) ->
    reads_scheme s x x' -> lookup res e = Some (XOpg (put_cx d cx)) -> scope_of e = s ->
    goes (fun y => y = res) V e (R (expand_schemes mk res [x]) e) (omap (enc_res d res) (exec_scheme x' tt cx)).
  Proof.
    intros Hmk Hrm Hvr Hf Hx Hr Hs.
    assert (Hn : forall y n, V y -> y <> Id n mk) by (intros; apply fresh_ne; auto).
    assert (Hnv : forall n, ~ V (Id n mk)) by (intros n Hv; now apply (Hn _ n Hv)).
    unfold exec_scheme. destruct Hx as [n l l' Hl|x n l l' Hxn Hl]; cbn [expand_schemes scheme_of].
    - set (sch := Id (u "scheme") mk). set (bf := Id (u "bearer_format") mk). set (ds := Id (u "description") mk). set (hs := Id (u "http_security_scheme") mk).
      assert (Hn1 : sch <> bf) by ne_names. assert (Hn2 : sch <> ds) by ne_names. assert (Hn3 : bf <> ds) by ne_names.
      assert (Hr1 : res <> sch) by now apply Hn. assert (Hr2 : res <> bf) by now apply Hn. assert (Hr3 : res <> ds) by now apply Hn. assert (Hr4 : res <> hs) by now apply Hn.
      rewrite run_one, run_block. apply goes_leave.
      { intros y tr v Htr Hy. apply omap_done in Htr as (q & cq & _ & ->). destruct Hy as [[= <- <-]|[]]; auto. }
      cbn [app]. rewrite run_all_cons, run_let, eval_val. cbn [obind]. eapply (goes_new _ _ sch); [exact Hmk|apply Hnv|cbn; intros y ->; auto|].
      unfold none. rewrite run_all_cons, run_let, eval_val. cbn [obind]. eapply (goes_let _ _ bf); [exact Hmk|apply Hnv|cbn; intros y ->; auto|].
      rewrite run_all_cons, run_let, eval_val. cbn [obind].
      eapply (goes_let _ _ ds); [exact Hmk|intros [H|H]; [now apply Hn3|now apply Hnv in H]|cbn; intros y [->| ->]; auto|].
      rewrite run_all_app. set (e0 := (ds, XOption None) :: (bf, XOption None) :: (sch, XMissing) :: e).
      assert (H1 : goes (fun x => x = ds \/ x = bf) (fun y => y = ds \/ y = bf \/ V y) e0 (R (map (expand_http_prop sch bf ds) l) e0)
        (omap (enc_http sch bf ds) (exec_list (fun p st cx => Done (http_step p st, cx)) l' (None, None, None) cx))).
      { apply (seq_goes E fuel reason imported s (reads_http_prop s) (fun _ l => map (expand_http_prop sch bf ds) l)
          (fun p st cx => Done (http_step p st, cx)) (enc_http sch bf ds) _ _ []) with (m := 0 :: mk); auto.
        - intros y [->| ->]; auto.
        - intros y [->| ->]; auto.
        - intros y v [].
        - intros m' p a st' cx' e' _ Hm' Hf' Hp Ht' _ Hs'. cbn [map]. apply http_prop_goes; auto.
          intros [H|[H|H]]; [now apply Hn2|now apply Hn1|now apply Hnv in H].
        - discriminate.
        - intros y [->|[->|Hy]]; try apply fresh_self. now apply fresh_cons, Hf.
        - subst e0. cbn. trk.
        - apply tracks_nil.
        - subst e0. rewrite !scope_cons; auto. }
      rewrite exec_pure in H1. destruct (fold_left (fun st p => http_step p st) l' (None, None, None)) as [[k f] a].
      unfold omap in H1. cbn [obind fst snd] in H1. destruct k as [k|]; [|exact I].
      replace (match k with KBasic => Done (n, Http (Basic a)) | KBearer => Done (n, Http (Bearer f a)) end)
        with (Done (n, Http match k with KBasic => Basic a | KBearer => Bearer f a end)) by now destruct k.
      unfold omap. cbn [obind fst snd].
      eapply (goes_then _ _ _ _ _ _ _ _ _ (fun x Hx => _) (fun x Hx => Hx) (fun x Hx => _) (fun x Hx => _) (fun x Hx => _) H1).
      Unshelve. 2-5: cbn in *; intuition (subst; auto).
      intros e1 Ht1 Hs1 Hl1. cbn in Ht1. trk_in Ht1.
      assert (Hr0 : lookup res e1 = Some (XOpg (put_cx d cx))). { rewrite Hl1; [|auto|intros [H'|H']; congruence]. subst e0. lk. }
      rewrite run_all_cons, run_let.
      replace (eval (EMatchKind (EVar sch) (EStruct NBasic [(Fdescription, EVar ds)]) (EStruct NBearer [(Fformat, EVar bf); (Fdescription, EVar ds)])) e1)
        with (Done (XHttp match k with KBasic => Basic a | KBearer => Bearer f a end, e1)).
      2: { cbn [Expand.eval]. rewrite H. cbn [typed obind]. destruct k; rewrite !fields_cons, ?(eval_var H0), ?(eval_var H2); cbn [obind eval_fields].
           - now destruct a.
           - rewrite (eval_var H2). now destruct a, f. }
      cbn [obind]. eapply (goes_new _ _ hs); [exact Hmk| |cbn; intros y [->|[->| ->]]; auto|].
      { intros [H'|[H'|H']]; [revert H'; ne_names|revert H'; ne_names|now apply Hnv in H']. }
      rewrite run_one, run_insert, eval_lit. cbn [obind]. rewrite eval_con, (eval_var (lookup_cons_same _ _ _)). cbn [obind apply_con typed].
      rewrite lookup_cons_other, Hr0 by ne. cbn [typed obind insert put_cx og_components cx_schemas cx_security].
      apply goes_sb; [apply sb_assign; auto|]. unfold enc_res. trk.
    - set (pin := Id (u "parameter_in") mk). set (nm := Id (u "name") mk). set (ds := Id (u "description") mk). set (sch := Id (u "scheme") mk).
      assert (Hn1 : pin <> nm) by ne_names. assert (Hn2 : pin <> ds) by ne_names. assert (Hn3 : nm <> ds) by ne_names.
      assert (Hr1 : res <> sch) by now apply Hn. assert (Hr2 : res <> pin) by now apply Hn. assert (Hr3 : res <> ds) by now apply Hn. assert (Hr4 : res <> nm) by now apply Hn.
      rewrite run_one, run_block. apply goes_leave.
      { intros y tr v Htr Hy. apply omap_done in Htr as (q & cq & _ & ->). destruct Hy as [[= <- <-]|[]]; auto. }
      cbn [app]. rewrite run_all_cons, run_let, eval_val. cbn [obind]. eapply (goes_let _ _ pin); [exact Hmk|apply Hnv|cbn; intros y ->; auto|].
      rewrite run_all_cons, run_let, eval_val. cbn [obind].
      eapply (goes_new _ _ nm); [exact Hmk|intros [H|H]; [now apply Hn1|now apply Hnv in H]|cbn; intros y [->| ->]; auto|].
      unfold none. rewrite run_all_cons, run_let, eval_val. cbn [obind].
      eapply (goes_let _ _ ds); [exact Hmk|intros [H|H]; [now apply Hn2|now apply Hnv in H]|cbn; intros y [->| ->]; auto|].
      rewrite run_all_app. set (e0 := (ds, XOption None) :: (nm, XMissing) :: (pin, XIn InHeader) :: e).
      assert (H1 : goes (fun x => x = ds \/ x = pin) (fun y => y = ds \/ y = pin \/ V y) e0 (R (map (expand_key_prop pin nm ds) l) e0)
        (omap (enc_key pin nm ds) (exec_list (fun p st cx => Done (key_step p st, cx)) l' (InHeader, None, None) cx))).
      { apply (seq_goes E fuel reason imported s (reads_key_prop s) (fun _ l => map (expand_key_prop pin nm ds) l)
          (fun p st cx => Done (key_step p st, cx)) (enc_key pin nm ds) _ _ []) with (m := 0 :: mk); auto.
        - intros y [->| ->]; auto.
        - intros y [->| ->]; auto.
        - intros y v [].
        - intros m' p a st' cx' e' _ Hm' Hf' Hp Ht' _ Hs'. cbn [map]. apply key_prop_goes; auto.
          intros [H|[H|H]]; [now apply Hn3|now apply Hn1|now apply Hnv in H].
        - discriminate.
        - intros y [->|[->|Hy]]; try apply fresh_self. now apply fresh_cons, Hf.
        - subst e0. cbn. trk.
        - apply tracks_nil.
        - subst e0. rewrite !scope_cons; auto. }
      rewrite exec_pure in H1. destruct (fold_left (fun st p => key_step p st) l' (InHeader, None, None)) as [[k f] a].
      unfold omap in H1. cbn [obind fst snd] in H1. destruct f as [f|]; [|exact I].
      unfold omap. cbn [obind fst snd].
      eapply (goes_then _ _ _ _ _ _ _ _ _ (fun x Hx => _) (fun x Hx => Hx) (fun x Hx => _) (fun x Hx => _) (fun x Hx => _) H1).
      Unshelve. 2-5: cbn in *; intuition (subst; auto).
      intros e1 Ht1 Hs1 Hl1. cbn in Ht1. trk_in Ht1.
      assert (Hr0 : lookup res e1 = Some (XOpg (put_cx d cx))). { rewrite Hl1; [|auto|intros [H'|H']; congruence]. subst e0. lk. }
      assert (Hs2 : scope_of e1 = s). { rewrite Hs1. subst e0. rewrite !scope_cons; auto. }
      rewrite run_all_cons, run_let, eval_struct, fields_cons, (eval_var H). cbn [obind]. rewrite fields_cons, (eval_var H0). cbn [obind].
      rewrite fields_cons, (eval_var H2). cbn [obind eval_fields].
      replace (build NApiKey [(Fparameter_in, XIn k); (Fname, XText f); (Fdescription, XOption (option_map XText a))])
        with (Some (XScheme (ApiKey {| ak_in := k; ak_name := f; ak_description := a |}))) by now destruct a.
      cbn [typed obind]. eapply (goes_new _ _ sch); [exact Hmk| |cbn; intros y [->|[->| ->]]; auto|].
      { intros [H'|[H'|H']]; [revert H'; ne_names|revert H'; ne_names|now apply Hnv in H']. }
      rewrite run_one, run_insert, ExpandFacts2.eval_text with (t := n); [|rewrite scope_cons; [now rewrite Hs2|exact Hmk]].
      cbn [obind]. rewrite (eval_var (lookup_cons_same _ _ _)). cbn [obind].
      rewrite lookup_cons_other, Hr0 by ne. cbn [typed obind insert put_cx og_components cx_schemas cx_security].
      apply goes_sb; [apply sb_assign; auto|]. unfold enc_res. trk.
  Qed.
  Lemma schemes_goes mk l l' d res cx e (V : ident -> Prop) : mk <> [] -> marked res -> V res -> (forall y, V y -> fresh mk y) ->
    Forall2 (reads_scheme s) l l' -> lookup res e = Some (XOpg (put_cx d cx)) -> scope_of e = s ->
    goes (fun y => y = res) V e (R (expand_schemes mk res l) e) (omap (enc_res d res) (exec_list exec_scheme l' tt cx)).
  Proof.
    intros Hmk Hrm Hvr Hf Hl Hr Hs.
    apply (seq_goes E fuel reason imported s (reads_scheme s) (fun mk l => expand_schemes mk res l) exec_scheme (enc_res d res) _ V []) with (m := mk); auto using tracks_nil.
    - now intros m' [] l0.
    - now intros y ->.
    - now intros y ->.
    - intros y v [].
    - intros m' x a [] cx' e' _ Hm' Hf' Hx Ht' _ Hs'. unfold enc_res in Ht'. trk_in Ht'. now apply scheme_goes.
    - unfold enc_res. trk.
  Qed.

  (** ** Sections *)
  Lemma section_goes mk x x' d res e (V : ident -> Prop) : mk <> [] -> marked res -> V res -> (forall y, V y -> fresh mk y) ->
    reads_section info_in_turn s x x' ->
    (imported = true \/ forall l dd m ops cs t, x = XcPaths l -> In dd l -> In (XvMethod m ops) (xd_props dd) -> In (XoCallbacks cs t) ops -> cs = []) ->
    lookup res e = Some (XOpg d) -> scope_of e = s ->
    goes (fun y => y = res) V e (R (expand_section seg mk res x) e) (get d' <- exec_section E fuel reason seg x' d; Done [(res, XOpg d')]).
  Proof.
    intros Hmk Hrm Hvr Hf Hx Hi Hr Hs. destruct Hx as [l l' Hl|l l' Hl|l l' Hl|l l' Hl|l l' Hl]; cbn [expand_section exec_section].
    - pose proof (info_goes s l l' res d e V Hl Hrm Hr Hs) as H. destruct (exec_info l'); exact H.
    - unfold expand_tags. rewrite run_one, run_block. apply goes_leave.
      + intros y tr v [= <-] [[= <- <-]|[]]; auto.
      + now apply tags_section.
    - unfold expand_servers. rewrite run_one, run_block. apply goes_leave.
      + intros y tr v [= <-] [[= <- <-]|[]]; auto.
      + now apply servers_section.
    - assert (Hr' : lookup res e = Some (XOpg (put_cx d (og_components d)))) by (rewrite Hr; now destruct d).
      pose proof (schemes_goes mk l l' d res (og_components d) e V Hmk Hrm Hvr Hf Hl Hr' Hs) as H.
      destruct (exec_list exec_scheme l' tt (og_components d)) as [[[] cx]| | |]; exact H.
    - rewrite run_one, run_block. apply goes_leave.
      + intros y tr v Htr Hy. destruct (exec_list _ l' _ _) as [[ps cx]| | |] in Htr; try discriminate. injection Htr as <-. destruct Hy as [[= <- <-]|[]]; auto.
      + assert (Hl' : Forall2 (reads_path s (cb_ok E fuel reason imported seg s)) l l').
        { apply (Forall2_in _ _ _ _ Hl). intros p p' Hp Hp' Hpp. apply (reads_path_mono _ _ _ _ _ Hpp).
          intros m ops t cs m' ops' t' cs' c c' H1 H2 H3 _ _ _ Hc. destruct Hi as [Hi|Hi]; [now apply callback_ok|].
          rewrite (Hi _ _ _ _ _ _ eq_refl Hp H1 H2) in H3. contradiction. }
        assert (Hr' : tracks (enc_doc d res (og_paths d) (og_components d)) e). { unfold enc_doc. replace (put_cx _ _) with d by now destruct d. trk. }
        pose proof (doc_paths_goes E fuel reason imported seg s mk d res V l l' _ _ e Hmk Hrm Hvr Hf Hl' Hr' Hs) as H.
        destruct (exec_list _ l' _ _) as [[ps cx]| | |]; exact H.
  Qed.
  Lemma sections_goes l l' res (V : ident -> Prop) : marked res -> V res -> Forall2 (reads_section info_in_turn s) l l' -> (imported = true \/ no_callbacks l) ->
    forall mk d e, mk <> [] -> (forall y, V y -> fresh mk y) -> lookup res e = Some (XOpg d) -> scope_of e = s ->
    goes (fun y => y = res) V e (R (expand_sections seg mk res l) e) (get d' <- exec_sections E fuel reason seg l' d; Done [(res, XOpg d')]).
  Proof.
    intros Hrm Hvr Hl. induction Hl as [|x x' l l' Hx Hl IH]; intros Hi mk d e Hmk Hf Hr Hs.
    - cbn. apply goes_done. trk.
    - cbn [expand_sections exec_sections]. rewrite run_all_app.
      assert (H1 : goes (fun y => y = res) V e (R (expand_section seg (0 :: mk) res x) e) (get d' <- exec_section E fuel reason seg x' d; Done [(res, XOpg d')])).
      { apply section_goes; auto; [discriminate|intros y Hy; now apply fresh_cons, Hf|]. destruct Hi as [Hi|Hi]; [now left|right].
        intros k dd m ops cs t -> H1 H2 H3. eapply Hi; eauto. now left. }
      destruct (exec_section E fuel reason seg x' d) as [d1| | |];
        [|cbn in H1 |- *; rewrite H1; reflexivity|cbn in H1 |- *; rewrite H1; reflexivity|exact I].
      cbn [obind] in H1 |- *.
      eapply (goes_then _ _ _ _ _ _ _ _ _ (fun x Hx => Hx) (fun x Hx => Hx) (fun x Hx => _) (fun x Hx => _) (fun x Hx => _) H1).
      Unshelve. 2-4: cbn in *; intuition (subst; auto).
      intros e1 Ht1 Hs1 _. trk_in Ht1. apply IH; auto; try discriminate.
      + destruct Hi as [Hi|Hi]; [now left|right]. intros k dd m ops cs t H2 H3 H4 H5. eapply Hi; eauto. now right.
      + intros y Hy. now apply fresh_cons, Hf.
      + congruence.
  Qed.
  Lemma run_api_agrees x a : reads_api info_in_turn s x a -> (imported = true \/ no_callbacks x) -> describe_api E fuel reason seg a <> Rejected ->
    run_api E fuel reason imported seg s x = describe_api E fuel reason seg a.
  Proof.
    intros Hx Hi Hd. unfold describe_api in *. destruct (forallb _ a); [|contradiction].
    unfold run_api, expand_api. set (res := Id (u "result") [0]). rewrite eval_block, run_all_cons, run_let, eval_val. cbn [obind].
    set (e := map _ s). assert (Hs : scope_of ((res, XOpg opg_default) :: e) = s). { rewrite scope_cons by discriminate. apply scope_caller. }
    assert (H := sections_goes x a res (fun y => y = res) ltac:(discriminate) eq_refl Hx Hi [1] opg_default ((res, XOpg opg_default) :: e) ltac:(discriminate)).
    assert (Hf : forall y, y = res -> fresh [1] y). { intros y -> l El. apply (f_equal (fun l => last l 0)) in El. rewrite last_last in El. discriminate. }
    specialize (H Hf (lookup_cons_same _ _ _) Hs).
    destruct (exec_sections E fuel reason seg a opg_default) as [d| | |]; [|cbn in H; rewrite H; reflexivity|cbn in H; rewrite H; reflexivity|contradiction].
    cbn [obind] in H. apply goes_frame in H as (e' & -> & Ht & _); [|auto|intros y ->; discriminate]. cbn [obind]. trk_in Ht. rewrite (eval_var H). reflexivity.
  Qed.

  (** ** Callbacks without [CallbackObject] in scope *)
  Definition nd (l : list stmt) : Prop := forall e e', R l e <> Done e'.
  Lemma nd_l l1 l2 : nd l1 -> nd (l1 ++ l2).
  Proof. intros H e e'. rewrite run_all_app. destruct (R l1 e) as [e1| | |] eqn:E1; cbn; try discriminate. now destruct (H e e1). Qed.
  Lemma nd_r l1 l2 : nd l2 -> nd (l1 ++ l2).
  Proof. intros H e e'. rewrite run_all_app. destruct (R l1 e) as [e1| | |] eqn:E1; cbn; try discriminate. apply H. Qed.
  Lemma nd_block l : nd l -> nd [SBlock l].
  Proof. intros H e e'. rewrite run_one, run_block. destruct (R l e) as [e1| | |] eqn:E1; cbn; try discriminate. now destruct (H e e1). Qed.
  Lemma nd_cons x l : nd l -> nd (x :: l).
  Proof. exact (nd_r [x] l). Qed.
  Lemma nd_head x l : nd [x] -> nd (x :: l).
  Proof. exact (nd_l [x] l). Qed.
  Lemma nd_map {X} (f : X -> stmt) l x : In x l -> nd [f x] -> nd (map f l).
  Proof. intros Hx H. induction l as [|y l IH]; [contradiction|]. cbn [map]. destruct Hx as [->|Hx]; [now apply nd_head|now apply nd_cons, IH]. Qed.
  Lemma no_import_callbacks cbp t m res ctx c l : imported = false -> nd (expand_callbacks cbp t m res ctx (c :: l)).
  Proof.
    intros Hi e e'. cbn [expand_callbacks]. assert (Hc : forall e, eval ECallbackObject e = Rejected) by (intros; cbn; now rewrite Hi).
    destruct c as [n ps|n ps]; [destruct l, t|]; cbn [app]; rewrite ?run_all_cons, ?run_let, ?Hc; discriminate.
  Qed.
  Lemma nd_operation cbp o res ctx ops : (forall m, nd (expand_op_prop cbp m res ctx o)) -> In o ops -> forall m, nd (expand_operation cbp m res ctx ops).
  Proof.
    intros Hn Ho. induction ops as [|o' ops IH]; [contradiction|]. intros m. cbn [expand_operation]. destruct Ho as [->|Ho]; [|now apply nd_r, IH].
    apply nd_l, Hn.
  Qed.
  Lemma nd_props cbp o me res ctx ops ps : (forall m ctx, nd (expand_op_prop cbp m res ctx o)) -> In (XvMethod me ops) ps -> In o ops ->
    forall m, nd (expand_path_props cbp m res ctx ps).
  Proof.
    intros Hn Hm Ho. induction ps as [|p ps IH]; [contradiction|]. intros m. cbn [expand_path_props]. destruct Hm as [->|Hm]; [|now apply nd_r, IH].
    apply nd_l. cbn [expand_path_prop]. apply nd_cons, nd_l. eapply nd_operation; eauto.
  Qed.
  (** an operation with a property whose code does not run to its end *)
  Lemma nd_api x l d m ops o : (forall m res ctx, nd (expand_op_prop (expand_callback_paths seg) m res ctx o)) ->
    In (XcPaths l) x -> In d l -> In (XvMethod m ops) (xd_props d) -> In o ops ->
    forall doc, run_api E fuel reason imported seg s x <> Done doc.
  Proof.
    intros Hn Hx Hl Hm Ho doc.
    assert (H : forall mk res, nd (expand_sections seg mk res x)).
    { intros mk res. revert mk. induction x as [|y x IH]; [contradiction|]. intros mk. cbn [expand_sections]. destruct Hx as [->|Hx]; [|now apply nd_r, IH].
      apply nd_l. cbn [expand_section]. apply nd_block. apply (nd_map _ _ d Hl). unfold expand_path. apply nd_block, nd_r, nd_r, nd_l.
      eapply nd_props; eauto. }
    unfold run_api, expand_api. rewrite eval_block, run_all_cons, run_let, eval_val. cbn [obind].
    destruct (R (expand_sections seg [1] _ x) _) as [e1| | |] eqn:E1; cbn [obind]; try discriminate. now apply H in E1.
  Qed.
  Lemma no_import_api x l d m ops cs t : imported = false -> In (XcPaths l) x -> In d l -> In (XvMethod m ops) (xd_props d) -> In (XoCallbacks cs t) ops -> cs <> [] ->
    forall doc, run_api E fuel reason imported seg s x <> Done doc.
  Proof.
    intros Hi Hx Hl Hm Ho Hc. apply (nd_api x l d m ops (XoCallbacks cs t)); auto.
    intros m' res ctx. cbn [expand_op_prop]. destruct cs; [contradiction|]. now apply no_import_callbacks.
  Qed.
  Lemma string_text_api x l d m ops o e : o = XoSummary e \/ o = XoId e \/ o = XoDescription e -> (forall v, exists t, e v = XText t) ->
    In (XcPaths l) x -> In d l -> In (XvMethod m ops) (xd_props d) -> In o ops ->
    forall doc, run_api E fuel reason imported seg s x <> Done doc.
  Proof.
    intros Hk He Hx Hl Hm Ho. apply (nd_api x l d m ops o); auto. intros m' res ctx e0 e1.
    destruct Hk as [->|[->| ->]]; cbn [expand_op_prop]; rewrite run_one, run_call, eval_user; cbn [obind];
      destruct (He (scope_of e0)) as [t ->]; destruct (lookup ctx e0) as [w|]; cbn [typed obind]; try discriminate; destruct w; discriminate.
  Qed.
End Templates.

(** ** What the caller means *)
Lemma ignores_all (e : uexpr) pre s : (forall n, In n (map fst pre) -> ignores n e) -> e (pre ++ s) = e s.
Proof.
  intros H. induction pre as [|[n v] pre IH]; [reflexivity|]. pose proof (H n (or_introl eq_refl) v [] (pre ++ s)) as Hn. cbn [app] in Hn |- *. rewrite Hn. apply IH.
  intros m Hm. apply H. now right.
Qed.
Lemma meant_in_turn s l l' : info_meant s l l' -> info_apart l -> info_in_turn s l l'.
Proof.
  intros H. assert (G : forall pre, (forall n p, In n (map fst pre) -> In p l -> ignores n (info_expr p)) -> info_apart l -> info_in_turn (pre ++ s) l l').
  { induction H as [|p p' l l' Hp Hl IH]; intros pre Hpre Ha; [constructor|].
    assert (He : info_expr p (pre ++ s) = info_expr p s). { apply ignores_all. intros n Hn. apply Hpre; auto. now left. }
    assert (Ha' : info_apart l). { intros l1 q l2 r -> Hr. apply (Ha (p :: l1) q l2 r); [reflexivity|now right]. }
    assert (Hn : forall q, In q l -> ignores (info_name p) (info_expr q)).
    { intros q Hq. apply in_split in Hq as (l1 & l2 & ->). apply (Ha (p :: l1) q l2 p); [reflexivity|now left]. }
    assert (Hpre' : forall v n q, In n (map fst ((info_name p, v) :: pre)) -> In q l -> ignores n (info_expr q)).
    { intros v n q [<-|Hq] Hi; [now apply Hn|]. apply Hpre; auto. now right. }
    destruct Hp as [x t Hx|x t Hx|x t Hx]; cbn in He, Hpre'; constructor; unfold shows in *; rewrite ?He; auto;
      rewrite app_comm_cons; apply IH; eauto. }
  intros Ha. apply (G []); auto. intros n p [].
Qed.
Lemma meant_reads s x a : reads_api info_meant s x a -> (forall l, In (XcInfo l) x -> info_apart l) -> reads_api info_in_turn s x a.
Proof.
  unfold reads_api. induction 1 as [|y b x a Hy Hx IH]; intros H; constructor.
  - destruct Hy as [l l' Hl|l l' Hl|l l' Hl|l l' Hl|l l' Hl]; constructor; auto. apply meant_in_turn; auto. apply H. now left.
  - apply IH. intros. apply H. now right.
Qed.
