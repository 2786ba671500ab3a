(** Proofs that each action carries what its arguments say. *)
From Coq Require Import Lia.
From Verif Require Import Base Lib Address Var Value SetVar Flags Comparator Message EditHeader
  Expr ExprTok Event Notify AddrTest Vacation Sieve Utf8 Lexer Scope StringTok HeaderVar Compile ParseArgs ParseBase Parse GrammarSpec
  GrammarProofs GrammarProofs2 GrammarProofs3 ArgBase ArgSpec ArgProofs1 ArgProofs2 ArgProofs3 ArgProofs4.
Import ListNotations.
Local Open Scope string_scope.
Local Open Scope list_scope.

Lemma split_comma_words x : words_of x (split_comma x).
Proof.
  induction x as [|c x (first & others & E & X & F)]; cbn [split_comma].
  - exists [], []. repeat split. constructor; [auto|constructor].
  - rewrite E in *. destruct (N.eqb c 44) eqn:C.
    + apply N.eqb_eq in C. subst c. exists [], (first :: others). split; [reflexivity|]. split; [cbn; now rewrite X|]. constructor; [auto|exact F].
    + apply N.eqb_neq in C. exists (c :: first), others. split; [reflexivity|]. split; [cbn; now rewrite X|].
      inversion F; subst. constructor; [|assumption]. intros [->|I]; auto.
Qed.

Section Actions.
  Variable K : cenv.
  Variable V : vst.
  Variable FU : nat.
  Notation L := (C_L K).
  Notation eats := (eats K V).
  Notation silent := (silent K V).
  Notation strings_are := (strings_are K V).
  Notation string1 := (string1 K V).
  Notation plain_action := (plain_action K V).
  Notation Om := (Om K).

  Lemma eats_validate m l : eats (validate_match K m l) (fun ks us _ => us = [] /\ ks = keyed m l).
  Proof.
    apply eats_post; [apply silent_validate|]. intros s a s' E _. unfold validate_match in E. destruct m; try (injection E as <- <-; reflexivity).
    destruct (regexes K l) as [l'|] eqn:X; [|unfold bind in E; destruct (next K s); discriminate]. injection E as <- <-. eapply regexes_map; eauto.
  Qed.
  Lemma eats_check_true b {A} (k : P A) (Q : A -> list tok -> list tok -> Prop) : (b = true -> eats k Q) -> eats (check K b ;; k) Q.
  Proof.
    intro H. destruct b; [apply eats_check; auto|]. unfold check. apply eats_never. intros s x s' E. unfold bind in E. destruct (next K s); discriminate.
  Qed.
  Lemma eats_keep : eats (cmd_keep K FU) (fun i us _ => plain_action "keep" us i).
  Proof.
    assert (Z : plain_action "keep" [] (IxKeep [])).
    { apply is_keep with (l := []); [|reflexivity|reflexivity]. split; [reflexivity|apply Forall_nil]. }
    unfold cmd_keep. apply eats_peek_next. intro p. destruct p as [| |t]; try (apply eats_ret; auto).
    destruct t; try (apply eats_ret; auto). destruct (word "flags" w) eqn:W; [|apply eats_ret; auto]. apply word_named in W as ->.
    apply eats_next_seen. intro u. apply eats_silent; [apply silent_va|]. intros _. eapply eats_then; [apply eats_strings|].
    intro v. apply eats_ret. intros ts. split; [reflexivity|]. intros us H ->.
    apply is_keep with (l := [(Some (lit "flags"), us)]); [|reflexivity|].
    - split; [cbn; now rewrite app_nil_r|]. constructor; [|apply Forall_nil]. eapply legal_shape; [reflexivity|]. apply fits_one. eapply strings_shape; eauto.
    - exact H.
  Qed.
  Lemma eats_fileinto : eats (cmd_fileinto K FU) (fun i us _ => plain_action "fileinto" us i).
  Proof.
    unfold cmd_fileinto.
    set (O := fun (a : args) (l : list piece) => strs_opt K V "flags" l (a_flags a) /\ str_opt K V "mailboxid" l (a_mbid a) /\
      str_opt K V "specialuse" l (a_special a) /\ flag "copy" l (a_copy a) /\ flag "create" l (a_create a)).
    eapply eats_then; [apply (eats_args K V FU (with_strings ["flags"; "mailboxid"; "specialuse"] ++ bare ["copy"; "create"])
      (fun a l => O a l /\ positional l = []) _ _ (fun a l => O a l /\ Fs K V a l))|].
    - unfold O. tag.
    - unfold O. hdls.
    - unfold O. intros t a. unfold the_string. arg eats_str1. now apply Fs_done.
    - fin. destruct HF as ((A & B & C & D & E) & k & x & P & Q & R). assert (x = v) as -> by congruence. eapply is_fileinto; eauto.
  Qed.
  Lemma parse_dsn_is x d : parse_dsn K x = Some d -> dsn_is K x d.
  Proof.
    unfold parse_dsn. destruct (teqb_ic x (lit "never")) eqn:E.
    - injection 1 as <-. left. split; [|reflexivity]. apply teqb_ic_spec in E. exact E.
    - intro H. right. split; [intro X; change (teqb (lower_text x) (lit "never") = false) in E; rewrite X, teqb_refl in E; discriminate|].
      exists (split_comma x), (dsn_items K x). split; [apply split_comma_words|].
      split; [intro X; rewrite X in H; discriminate|]. split; [destruct (dsn_items K x); [discriminate|now injection H as <-]|].
      unfold dsn_items. apply flat_map_ext. intro w. set (y := trim (chr_is_ws L) w). cbn [assoc dsn_words].
      change (teqb_ic y (lit "success")) with (teqb (lower_text y) (lit "success")).
      change (teqb_ic y (lit "failure")) with (teqb (lower_text y) (lit "failure")).
      change (teqb_ic y (lit "delay")) with (teqb (lower_text y) (lit "delay")).
      destruct (teqb (lower_text y) (lit "success")); [reflexivity|]. destruct (teqb (lower_text y) (lit "failure")); [reflexivity|].
      destruct (teqb (lower_text y) (lit "delay")); reflexivity.
  Qed.
  Lemma handles_static {A} ts (R : args -> list piece -> Prop) (g : text -> option A) (f : A -> args -> args) n c x :
    shape_of x ts = Some [SStrings] ->
    (forall a l us t v, R a l -> text_is K us t -> g t = Some v -> R (f v a) (l ++ [(Some (lit x), us)])) ->
    handles K V ts R (word x, fun _ a => va K n c ;; t <- static_string K FU ;; v <- lift (g t) ;; ret (f v a)).
  Proof.
    intros Hs HR w a W. cbn [fst snd] in *. apply word_named in W as ->. apply eats_silent; [apply silent_va|]. intros _.
    eapply eats_then; [apply eats_static|]. intro t. apply eats_lift_then. intros v E. apply eats_ret. intros ts'. split; [reflexivity|].
    intros us H. split; [eapply legal_shape; [exact Hs|]; apply fits_one; eapply text_shape; eauto|]. intros l Hl. eapply HR; eauto.
  Qed.
  Definition bymode_arg (_ : text) (us : list tok) (m : bymode) : Prop := exists x, text_is K us x /\
    assoc (lower_text x) [("notify", ByNotify); ("return", ByReturn)] = Some m.
  Definition ret_arg (_ : text) (us : list tok) (r : retc) : Prop := exists x, text_is K us x /\
    assoc (lower_text x) [("full", RetFull); ("hdrs", RetHdrs)] = Some r.
  Definition dsn_arg (_ : text) (us : list tok) (d : dsn) : Prop := exists x, text_is K us x /\ dsn_is K x d.
  Lemma eats_redirect : eats (cmd_redirect K FU) (fun i us _ => plain_action "redirect" us i).
  Proof.
    unfold cmd_redirect.
    set (O := fun (a : args) (l : list piece) => flag "copy" l (a_copy a) /\ flag "list" l (a_list a) /\ flag "bytrace" l (a_trace a) /\
      opt ["bymode"] bymode_arg ByDefault l (a_bymode a) /\ num_opt "bytimerelative" l (a_rlimit a) /\ str_opt K V "bytimeabsolute" l (a_alimit a) /\
      opt ["ret"] ret_arg RetDefault l (a_ret a) /\ opt ["notify"] dsn_arg DsnDefault l (a_dsn a)).
    eapply eats_then; [apply (eats_args K V FU (bare ["copy"; "list"; "bytrace"] ++ with_strings ["bymode"; "bytimeabsolute"; "ret"; "notify"] ++
              [("bytimerelative", [SNumber])])
      (fun a l => O a l /\ positional l = []) _ _ (fun a l => O a l /\ Fs K V a l))|].
    - unfold O. tag.
    - unfold O. hdls.
      + apply (handles_static _ _ parse_bymode s_bymode); [reflexivity|]. intros; open_; conj;
          first [pos|comp|apply opt_hit; [reflexivity|]]. exists t. split; [assumption|].
        match goal with H : parse_bymode _ = _ |- _ => unfold parse_bymode in H; cbn [assoc]; rename H into X end.
        change (teqb_ic t (lit "notify")) with (teqb (lower_text t) (lit "notify")) in X.
        change (teqb_ic t (lit "return")) with (teqb (lower_text t) (lit "return")) in X.
        destruct (teqb (lower_text t) (lit "notify")); [exact X|]. destruct (teqb (lower_text t) (lit "return")); exact X.
      + apply (handles_static _ _ parse_ret s_ret); [reflexivity|]. intros; open_; conj;
          first [pos|comp|apply opt_hit; [reflexivity|]]. exists t. split; [assumption|].
        match goal with H : parse_ret _ = _ |- _ => unfold parse_ret in H; cbn [assoc]; rename H into X end.
        change (teqb_ic t (lit "full")) with (teqb (lower_text t) (lit "full")) in X.
        change (teqb_ic t (lit "hdrs")) with (teqb (lower_text t) (lit "hdrs")) in X.
        destruct (teqb (lower_text t) (lit "full")); [exact X|]. destruct (teqb (lower_text t) (lit "hdrs")); exact X.
      + apply (handles_static _ _ (parse_dsn K) s_dsn); [reflexivity|]. intros; open_; conj;
          first [pos|comp|apply opt_hit; [reflexivity|]]. exists t. split; [assumption|]. now apply parse_dsn_is.
    - unfold O. intros t a. unfold the_string. arg eats_str1. now apply Fs_done.
    - fin. destruct HF as ((A & B & C & D & E & F & G & H0) & k & x & P & Q & R). assert (x = v) as -> by congruence.
      eapply is_redirect; eauto.
  Qed.
  Lemma eats_replace : eats (cmd_replace K FU) (fun i us _ => plain_action "replace" us i).
  Proof.
    unfold cmd_replace.
    set (O := fun (a : args) (l : list piece) => str_opt K V "subject" l (a_subject a) /\ str_opt K V "from" l (a_from a) /\ flag "mime" l (a_mime a)).
    eapply eats_then; [apply (eats_args K V FU (bare ["mime"] ++ with_strings ["subject"; "from"])
      (fun a l => O a l /\ positional l = []) _ _ (fun a l => O a l /\ Fs K V a l))|].
    - unfold O. tag.
    - unfold O. hdls.
    - unfold O. intros t a. unfold the_string. arg eats_str1. now apply Fs_done.
    - fin. destruct HF as ((A & B & C) & k & x & P & Q & R). assert (x = v) as -> by congruence. eapply is_replace; eauto.
  Qed.
  Lemma eats_enclose : eats (cmd_enclose K FU) (fun i us _ => plain_action "enclose" us i).
  Proof.
    unfold cmd_enclose.
    set (O := fun (a : args) (l : list piece) => str_opt K V "subject" l (a_subject a) /\ strs_opt K V "headers" l (a_headers a)).
    eapply eats_then; [apply (eats_args K V FU (with_strings ["subject"; "headers"])
      (fun a l => O a l /\ positional l = []) _ _ (fun a l => O a l /\ Fs K V a l))|].
    - unfold O. tag.
    - unfold O. hdls.
    - unfold O. intros t a. unfold the_string. arg eats_str1. now apply Fs_done.
    - fin. destruct HF as ((A & B) & k & x & P & Q & R). assert (x = v) as -> by congruence. eapply is_enclose; eauto.
  Qed.
  Lemma eats_convert_a : eats (cmd_convert K FU) (fun t us _ => plain_action "convert" us t).
  Proof.
    unfold cmd_convert. eapply (eats_bind K V); [apply eats_string|]. intro m. eapply (eats_bind K V); [apply eats_string|]. intro l.
    eapply eats_then; [apply eats_strings|]. intro z.
    apply eats_ret. intro ts. split; [reflexivity|]. intros ws H1 vs H2 us H3. now eapply is_convert_a; eauto.
  Qed.
  Definition Fa (a : args) (l : list piece) : Prop := exists x y n v, positional l = [x; y] /\ a_name a = Some n /\ a_name2 a = Some v /\
    string1 x n /\ string1 y v.
  Lemma eats_addheader : eats (cmd_addheader K FU) (fun i us _ => plain_action "addheader" us i).
  Proof.
    unfold cmd_addheader.
    eapply eats_then; [apply (eats_args K V FU (bare ["last"]) (fun a l => flag "last" l (a_last a) /\ P1 K V a l) _ _
      (fun a l => flag "last" l (a_last a) /\ Fa a l))|].
    - tag.
    - hdls.
    - intros t a. eapply eats_then; [apply eats_str1|]. intro v. destruct (a_name a) eqn:E; apply eats_check; apply eats_ret; intros ts;
        (split; [reflexivity|]); intros us HQ; (split; [eapply strings_shape; eauto|]); intros l H; open_; conj; try comp.
      + unfold P1 in *. rewrite E in *. destruct H0 as (n & X & Y). exists n, (t :: us), v0, v. split; [now apply pos_some|]. auto.
      + apply P1_more; auto.
    - fin. destruct HF as (A & x & y & n & z & P & Q & R & S & T). assert (n = v) as -> by congruence. assert (z = v0) as -> by congruence.
      eapply is_addheader; eauto.
  Qed.
  Lemma eats_deleteheader : eats (cmd_deleteheader K FU) (fun i us _ => plain_action "deleteheader" us i).
  Proof.
    unfold cmd_deleteheader.
    eapply (eats_bind K V); [apply (eats_args K V FU (match_tags false ++ index_tags ++ mime_tags)
      (fun a l => (Om a l /\ Oi a l /\ Oa a l) /\ positional l = []) _ _ (fun a l => (Om a l /\ Oi a l /\ Oa a l) /\ Fs K V a l))|].
    - tag.
    - hdls.
    - intros t a. arg eats_str_checked. now apply Fs_done.
    - intro a. apply eats_check. apply eats_peek_next. intro p.
      eapply (eats_bind K V _ _ (fun ks us _ => (us = [] /\ ks = []) \/ (keys_are K V (a_m a) us ks /\ a_strings us))).
      + destruct (starts_strings p); [|apply eats_ret; auto]. eapply eats_then; [apply eats_strings|]. intro v.
        eapply eats_weaken; [apply eats_validate|]. cbv beta. intros ks us2 ts [-> ->]. split; [reflexivity|]. intros us H. right. split; [exists v; auto|eapply strings_shape; eauto].
      + intro ks. apply eats_lift_then. intros n E. apply eats_ret. intros ts us2 HK _ us (l & S & (A & B & C) & k & x & P & Q & R).
        assert (x = n) as -> by congruence. rewrite app_nil_r. destruct HK as [[-> ->]|[HK HS]].
        * rewrite app_nil_r. eapply is_deleteheader; eauto. now apply Oi_index.
        * eapply is_deleteheader_with with (l := l ++ [(None, us2)]); [apply splits_snoc; auto|apply pos_some; exact P|exact R| | | |exact HK].
          -- apply Oi_index. unfold Oi, flag in *. destruct B. split; now apply opt_pos.
          -- now apply opt_pos.
          -- unfold ArgProofs3.Om in A. destruct A. split; now apply opt_pos.
  Qed.

  (** *** Variables *)
  Definition modw : list String.string := "replace" :: map fst modifiers.
  Notation modifiers_are := (modifiers_are K V).
  Lemma mods_hit l ms w us m : among modw w = true -> modifier_is K V (Some w, us) m -> modifiers_are l ms ->
    modifiers_are (l ++ [(Some w, us)]) (ms ++ [m]).
  Proof.
    intros W H X. unfold ArgSpec.modifiers_are. rewrite filter_app. apply Forall2_app; [exact X|]. cbn [filter fst].
    change ("replace" :: map fst modifiers) with modw. rewrite W. repeat constructor. exact H.
  Qed.
  Lemma mods_miss l ms w us : among modw w = false -> modifiers_are l ms -> modifiers_are (l ++ [(Some w, us)]) ms.
  Proof.
    intros W X. unfold ArgSpec.modifiers_are. rewrite filter_app. cbn [filter fst]. change ("replace" :: map fst modifiers) with modw.
    rewrite W, app_nil_r. exact X.
  Qed.
  Lemma handles_modifier ts (R : args -> list piece -> Prop) words : (forall w, In w words -> In (w, []) ts) -> (forall w, In w words -> In w (map fst modifiers)) ->
    (forall w a l m, R a l -> assoc w modifiers = Some m -> R (s_mods (a_mods a ++ [m]) a) (l ++ [(Some w, [])])) -> handles K V ts R (h_modifier words).
  Proof.
    intros Hs Hp HR w a W. cbn [fst snd h_modifier] in *. pose proof (proj1 (oneof_named _ _) W) as I. unfold named in I. apply eats_ret. intros _.
    apply in_map_iff in I as (x & <- & Ix). split.
    - exists x, []. split; [auto|]. split; reflexivity.
    - intros l H. apply HR; auto. apply Hp in Ix. cbn [map modifiers fst In] in Ix.
      repeat (destruct Ix as [<-|Ix]; [reflexivity|]). contradiction.
  Qed.
  Lemma handles_replace ts (R : args -> list piece -> Prop) : shape_of "replace" ts = Some [SStrings; SStrings] ->
    (forall a l t1 t2 f r, R a l -> string_is K V t1 f -> string_is K V t2 r ->
       R (s_mods (a_mods a ++ [ModReplace f r]) a) (l ++ [(Some (lit "replace"), [t1; t2])])) -> handles K V ts R (h_replace K).
  Proof.
    intros Hs HR w a W. cbn [fst snd h_replace] in *. apply word_named in W as ->. apply eats_read. intro x. apply eats_read. intro y.
    eapply (eats_bind K V); [apply eats_string_tok|]. intro f. eapply (eats_then K V); [apply eats_string_tok|]. intro r. apply eats_ret. intros ts'.
    split; [reflexivity|]. intros us2 [-> H2] us1 [-> H1]. cbn [app]. split; [|auto]. eapply legal_shape; [exact Hs|].
    exists [x], [y]. split; [reflexivity|]. split; [left; exists x; split; [reflexivity|eapply string_is_string; eauto]|]. apply fits_one.
    left. exists y. split; [reflexivity|eapply string_is_string; eauto].
  Qed.
  Lemma assoc_among w m : assoc w modifiers = Some m -> among modw w = true /\ among ["local"] w = false /\ among ["first"] w = false.
  Proof.
    intro H.
    assert (I : In w (map lit (map fst modifiers))).
    { clear -H. induction modifiers as [|[n x] l IH]; cbn [assoc map fst In] in *; [discriminate|].
      destruct (teqb w (lit n)) eqn:E; [apply teqb_spec in E; auto|auto]. }
    cbn [map fst modifiers In] in I. repeat (destruct I as [<-|I]; [repeat split; reflexivity|]). contradiction.
  Qed.
  Definition Ox (a : args) (l : list piece) : Prop :=
    (flag "local" l (a_local a) /\ opt ["first"] (fun _ us x => exists n, us = [TNumber n] /\ x = Some (N.to_nat n)) None l (a_first a)) /\
    modifiers_are l (a_mods a).
  Lemma first_is l o : opt ["first"] (fun _ us x => exists n, us = [TNumber n] /\ x = Some (N.to_nat n)) None l o ->
    exists x, num_opt "first" l x /\ o = option_map N.to_nat x.
  Proof.
    unfold num_opt, opt. destruct (given ["first"] l) as [[w us]|].
    - intros (n & -> & ->). exists (Some n). split; [eauto|reflexivity].
    - intros ->. exists None. auto.
  Qed.
  (** *** Messages *)
  Definition Of (a : args) (l : list piece) : Prop := str_opt K V "fcc" l (a_fcc a) /\ strs_opt K V "flags" l (a_flags a) /\
    str_opt K V "mailboxid" l (a_mbid a) /\ str_opt K V "specialuse" l (a_special a) /\ flag "create" l (a_create a).
  Lemma given_none2 w ws l : given [w] l = None -> given ws l = None -> given (w :: ws) l = None.
  Proof.
    induction l as [|[[x|] us] l IH]; cbn [given]; auto. intros A B. destruct (given [w] l) eqn:E1; [discriminate|].
    destruct (given ws l) eqn:E2; [discriminate|]. rewrite IH by auto. cbn [among existsb] in *. destruct (teqb x (lit w)); [discriminate|].
    cbn [orb] in *. exact B.
  Qed.
  Lemma Of_fcc a l : Of a l -> fcc_ok a = true -> fcc_is K V l (the_fcc a).
  Proof.
    unfold Of, fcc_is, the_fcc, fcc_ok. intros (A & B & C & D & E) OK. unfold str_opt, strs_opt, flag, opt in *.
    destruct (given ["fcc"] l) as [[w us]|].
    - destruct A as (f & -> & A). exists f, (a_flags a), (a_mbid a), (a_special a), (a_create a). repeat (split; auto).
    - rewrite A in *. split; [reflexivity|]. apply negb_true_iff in OK. apply orb_false_iff in OK as [OK O4]. apply orb_false_iff in OK as [OK O3].
      apply orb_false_iff in OK as [O1 O2]. apply given_none2; [|apply given_none2; [|apply given_none2]].
      + destruct (given ["flags"] l) as [[w us]|]; [|reflexivity]. destruct (a_flags a); [|discriminate].
        destruct B as [(t & v & _ & _ & X)|(vs & _ & _ & X)]; [discriminate|contradiction].
      + destruct (given ["mailboxid"] l) as [[w us]|]; [|reflexivity]. destruct C as (v & X & _). rewrite X in O4. discriminate.
      + destruct (given ["specialuse"] l) as [[w us]|]; [|reflexivity]. destruct D as (v & X & _). rewrite X in O3. discriminate.
      + destruct (given ["create"] l) as [[w us]|]; [|reflexivity]. rewrite E in O1. discriminate.
  Qed.
  Lemma eats_notify : eats (cmd_notify K FU) (fun i us _ => plain_action "notify" us i).
  Proof.
    unfold cmd_notify.
    set (O := fun (a : args) (l : list piece) => Of a l /\ str_opt K V "from" l (a_from a) /\ str_opt K V "importance" l (a_imp a) /\
      strs_opt K V "options" l (a_nopts a) /\ str_opt K V "message" l (a_msg a)).
    eapply eats_then; [apply (eats_args K V FU (fcc_tags ++ with_strings ["from"; "message"; "importance"; "options"])
      (fun a l => O a l /\ positional l = []) _ _ (fun a l => O a l /\ Fs K V a l))|].
    - unfold O, Of. tag.
    - unfold O, Of. hdls. intros w a W. cbn [fst snd] in *. apply word_named in W as ->. apply eats_silent; [apply silent_va|]. intros _.
      eapply eats_then; [apply eats_string|]. intro v. destruct (from_ok v); [|apply eats_fail]. apply eats_ret. intros ts. split; [reflexivity|].
      intros us H. split; [eapply legal_shape; [reflexivity|]; apply fits_one; eapply strings_shape; eauto|]. intros l HR. open_; conj; first [pos|comp].
    - unfold O, Of. intros t a.
      assert (G : eats (the_string K t a) (fun r us _ => a_strings (t :: us) /\ forall l, O a l /\ positional l = [] ->
        match r with inl a' => O a' (l ++ [(None, t :: us)]) /\ positional (l ++ [(None, t :: us)]) = []
                   | inr a' => O a' (l ++ [(None, t :: us)]) /\ Fs K V a' (l ++ [(None, t :: us)]) end)).
      { unfold the_string, O, Of. arg eats_str1. now apply Fs_done. }
      destruct t; try exact G. destruct (validate_uri _ _ _); [exact G|apply eats_fail].
    - intro a. apply eats_check_true. intro OK. revert a OK. intros a OK. apply eats_lift_then. intros v E. apply eats_ret. intros ts. split; [reflexivity|].
      intros us (l & S & (A & B & C & D & F) & k & x & P & Q & R). assert (x = v) as -> by congruence. eapply is_notify; eauto. now apply Of_fcc.
  Qed.
  Lemma eats_include : eats (cmd_include K FU) (fun i us _ => include_is K V us i).
  Proof.
    unfold cmd_include.
    set (O := fun (a : args) (l : list piece) => flag "once" l (a_once a) /\ flag "optional" l (a_optional a) /\
      opt ["personal"; "global"] (fun w _ g => g = teqb w (lit "global")) false l (a_global a)).
    eapply eats_then; [apply (eats_args K V FU (bare ["once"; "optional"; "personal"; "global"])
      (fun a l => O a l /\ positional l = []) _ _ (fun a l => O a l /\ Fs K V a l))|].
    - unfold O. tag.
    - unfold O. hdls.
    - unfold O. intros t a. unfold the_string. arg eats_str1. now apply Fs_done.
    - fin. destruct HF as ((A & B & C) & k & x & P & Q & R). assert (x = v) as -> by congruence.
      exists lx, k, v, (a_global a), (a_once a), (a_optional a). auto 10.
  Qed.
  Definition period_arg (w : text) (us : list tok) (p : period) : Prop := exists n, us = [TNumber n] /\
    ((w = lit "days" /\ p = PDays n) \/ (w = lit "seconds" /\ p = PSeconds n)).
  Lemma eats_vacation : eats (cmd_vacation K FU) (fun p us _ => vacation_is K V us (fst p) (snd p)).
  Proof.
    unfold cmd_vacation.
    set (O := fun (a : args) (l : list piece) => Of a l /\ str_opt K V "subject" l (a_subject a) /\ str_opt K V "from" l (a_from a) /\
      flag "mime" l (a_mime a) /\ strs_opt K V "addresses" l (a_addrs a) /\ str_opt K V "handle" l (a_handle a) /\
      opt ["days"; "seconds"] period_arg PDefault l (a_period a)).
    eapply eats_then; [apply (eats_args K V FU (fcc_tags ++ with_strings ["subject"; "from"; "handle"; "addresses"] ++ bare ["mime"] ++
              [("days", [SNumber]); ("seconds", [SNumber])])
      (fun a l => O a l /\ positional l = []) _ _ (fun a l => O a l /\ Fs K V a l))|].
    - unfold O, Of. tag.
    - unfold O, Of. hdls.
      + apply handles_number; [reflexivity|]. intros; open_; conj; first [pos|comp|apply opt_hit; [reflexivity|]]. exists i. auto.
      + apply handles_number; [reflexivity|]. intros; open_; conj; first [pos|comp|apply opt_hit; [reflexivity|]]. exists i. auto.
    - unfold O, Of. intros t a. unfold the_string. arg eats_str1. now apply Fs_done.
    - intro a. apply eats_check_true. intro OK. apply eats_lift_then. intros v E. apply eats_ret. intros ts. split; [reflexivity|].
      intros us (l & S & (A & B & C & D & F & G & H) & k & x & P & Q & R). assert (x = v) as -> by congruence.
      exists l, k, v, (a_subject a), (a_from a), (a_mime a), (a_addrs a), (a_handle a), (a_period a), (the_fcc a).
      conj; auto. now apply Of_fcc.
  Qed.

End Actions.

(** *** Actions that declare variables *)
Section Turns.
  Variable K : cenv.
  Variable FU : nat.
  Notation L := (C_L K).
  Lemma turns_args V ts (R F : vst -> args -> list piece -> Prop) hs dflt : R V args0 [] ->
    (forall W, Forall (handles K W ts (R W)) hs) ->
    (forall W t a, turns K W (dflt t a) (fun r W' us _ => a_strings (t :: us) /\ forall l, R W a l ->
        match r with inl a' => R W' a' (l ++ [(None, t :: us)]) | inr a' => F W' a' (l ++ [(None, t :: us)]) end)) ->
    turns K V (read_args K FU hs dflt) (fun a W us _ => exists l, splits ts us l /\ F W a l).
  Proof.
    intros H0 Hh Hd. unfold read_args.
    assert (G : forall n V a, turns K V (loop n (step_args K hs dflt) a)
                 (fun a' W us _ => forall l, R V a l -> exists l', splits ts us l' /\ F W a' (l ++ l'))).
    { induction n as [|n IH]; intros V1 a; [apply turns_never; discriminate|]. cbn [loop].
      eapply (turns_bind K V1 _ _ (fun r W us _ => exists p, us = written p /\ legal ts p /\ forall l, R V1 a l ->
                match r with inl a' => R W a' (l ++ [p]) | inr a' => F W a' (l ++ [p]) end)).
      - unfold step_args. eapply turns_after; [apply eats_next|]. intro t.
        assert (D : turns K V1 (dflt t a) (fun r W vs _ => forall us, us = [t] -> exists p, us ++ vs = written p /\ legal ts p /\ forall l, R V1 a l ->
                match r with inl a' => R W a' (l ++ [p]) | inr a' => F W a' (l ++ [p]) end)).
        { eapply turns_weaken; [apply (Hd V1 t a)|]. cbv beta. intros r W us ts' [A B] ? ->. exists (None, t :: us). auto. }
        destruct t; try exact D. destruct (dispatch hs w) as [h|] eqn:E; [|exact D].
        apply dispatch_some in E as (f & g & I & X & ->). specialize (Hh V1). rewrite Forall_forall in Hh. specialize (Hh _ I w a X). cbn [fst snd] in Hh.
        eapply turns_after; [exact Hh|]. intro a'.
        eapply turns_weaken; [apply turns_eats, (eats_ret K V1 _ (fun r us _ => us = [] /\ r = inl a')); auto|].
        cbv beta. intros r W us ts' [-> [-> ->]] vs [A B] ? ->. rewrite app_nil_r. exists (Some w, vs). auto.
      - intros [a'|a'] W.
        + eapply turns_weaken; [apply IH|]. cbv beta. intros b W' vs ts' X us (p & -> & A & B) l HR. destruct (X _ (B _ HR)) as (l' & [-> S] & Y).
          exists (p :: l'). rewrite <- app_assoc in Y. split; [|exact Y]. split; [reflexivity|]. now constructor.
        + eapply turns_weaken; [apply turns_eats, (eats_ret K W _ (fun r us _ => us = [] /\ r = a')); auto|].
          cbv beta. intros r W' us0 ts' [-> [-> ->]] us (p & -> & A & B) l HR. exists [p]. split; [|auto]. split; [cbn; now rewrite !app_nil_r|auto]. }
    eapply turns_weaken; [apply (G FU V args0)|]. cbv beta. intros a W us ts' X. destruct (X [] H0) as (l & S & Y). eauto.
  Qed.
  Lemma turns_lift V {A B} (o : option A) (k : A -> P B) Q : (forall v, o = Some v -> turns K V (k v) Q) -> turns K V (bind (lift o) k) Q.
  Proof.
    intros H. destruct o as [v|]; [|apply turns_never; discriminate]. apply (H v eq_refl).
  Qed.
  Lemma turns_done V {A} (a : A) (Q : A -> vst -> list tok -> list tok -> Prop) : (forall ts, Q a V [] ts) -> turns K V (ret a) Q.
  Proof. intros H s x s' ts E EV F. injection E as <- <-. exists []. rewrite EV. auto. Qed.
  Lemma turns_simple V n (m : P instruction) : eats K V m (fun t us _ => plain_action K V n us t) -> turns K V m (fun t W us _ => action_is K V n us t W).
  Proof. intro H. eapply turns_weaken; [apply turns_eats, H|]. cbv beta. intros t W us ts [-> X]. now constructor. Qed.

  Lemma turns_extracttext V : turns K V (cmd_extracttext K FU) (fun i W us _ => action_is K V "extracttext" us i W).
  Proof.
    unfold cmd_extracttext.
    eapply turns_bind; [apply (turns_args V (bare ["lower"; "upper"; "lowerfirst"; "upperfirst"; "quotewildcard"; "quoteregex"; "length"; "local"] ++
              [("replace", [SStrings; SStrings]); ("first", [SNumber])])
      (fun W a l => Ox K W a l /\ positional l = [] /\ W = V)
      (fun W a l => exists l0 n v, l = l0 ++ [(None, [TStr n])] /\ Ox K V a l0 /\ positional l0 = [] /\ a_var a = Some v /\
                                 variable_is K V (const_text L n) (has "local" l0) v W))|].
    - unfold Ox. conj; try reflexivity. constructor.
    - intro W. unfold Ox. hdls.
      + apply handles_number; [reflexivity|]. intros; open_; conj; first [pos|comp|assumption|idtac]. now apply mods_miss.
      + apply handles_modifier.
        * inpart.
        * inpart.
        * intros w a l m H E. destruct (assoc_among _ _ E) as (X1 & X2 & X3). open_; conj.
          -- apply opt_miss; assumption.
          -- apply opt_miss; assumption.
          -- apply mods_hit; auto. now constructor.
          -- pos.
          -- assumption.
      + apply handles_replace; [reflexivity|]. intros; open_; conj; first [pos|comp|assumption|idtac]. apply mods_hit; auto. now constructor.
      + apply handles_bare; [reflexivity|]. intros; open_; conj; first [pos|comp|assumption|idtac]. now apply mods_miss.
    - intros W t a. unfold done. eapply turns_bind; [apply turns_variable_name|]. intros v W'. apply turns_done. intros ts us [-> (c & -> & X)].
      split; [left; exists (TStr c); split; [reflexivity|exact Logic.I]|]. intros l [H [P ->]].
      exists l, c, v. split; [reflexivity|]. split; [exact H|]. split; [exact P|]. split; [reflexivity|].
      destruct H as ((F & _) & _). apply flag_has in F. rewrite <- F. exact X.
    - intros a W. apply turns_lift. intros v Ev. apply turns_done. intros ts us (l & S & l0 & n & w & -> & ((A & B) & C) & P & Q & R).
      rewrite app_nil_r. assert (w = v) as -> by congruence. destruct (first_is _ _ B) as (o & O1 & ->). eapply is_extracttext; eauto.
  Qed.

  Definition Rset V (W : vst) (a : args) (l : list piece) : Prop :=
    match a_var a with
    | None => W = V /\ positional l = [] /\ flag "local" l (a_local a) /\ modifiers_are K V l (a_mods a)
    | Some v => exists l1 n l2 ms1 ms2, l = l1 ++ (None, [TStr n]) :: l2 /\ positional l1 = [] /\ positional l2 = [] /\
        variable_is K V (const_text L n) (has "local" l1) v W /\ a_mods a = ms1 ++ ms2 /\ modifiers_are K V l1 ms1 /\ modifiers_are K W l2 ms2
    end.
  Lemma Rset_step V W a a' l w us ms : a_var a' = a_var a ->
    (forall l, flag "local" l (a_local a) -> flag "local" (l ++ [(Some w, us)]) (a_local a')) ->
    a_mods a' = a_mods a ++ ms -> (forall l ms0, modifiers_are K W l ms0 -> modifiers_are K W (l ++ [(Some w, us)]) (ms0 ++ ms)) ->
    Rset V W a l -> Rset V W a' (l ++ [(Some w, us)]).
  Proof.
    unfold Rset. intros -> H1 E H2. destruct (a_var a).
    - intros (l1 & n & l2 & ms1 & ms2 & -> & P1 & P2 & X & Y & M1 & M2). exists l1, n, (l2 ++ [(Some w, us)]), ms1, (ms2 ++ ms).
      split; [now rewrite <- app_assoc|]. split; [exact P1|]. split; [now rewrite positional_snoc_tag|]. split; [exact X|].
      split; [rewrite E, Y; now rewrite app_assoc|]. auto.
    - intros (-> & P & F & M). rewrite positional_snoc_tag, E. auto.
  Qed.
  Lemma turns_set V : turns K V (cmd_set K FU) (fun i W us _ => action_is K V "set" us i W).
  Proof.
    unfold cmd_set.
    eapply turns_bind; [apply (turns_args V (bare ("local" :: map fst modifiers) ++ [("replace", [SStrings; SStrings])]) (Rset V)
      (fun W a l => exists l1 n l2 x v var ms1 ms2, l = l1 ++ (None, [TStr n]) :: l2 /\ positional l1 = [] /\ positional l2 = [x] /\ a_var a = Some var /\
         a_name a = Some v /\ variable_is K V (const_text L n) (has "local" l1) var W /\ string1 K W x v /\
         a_mods a = ms1 ++ ms2 /\ modifiers_are K V l1 ms1 /\ modifiers_are K W l2 ms2))|].
    - unfold Rset. cbn [a_var args0]. conj; try reflexivity. constructor.
    - intro W. hdls.
      + apply handles_modifier.
        * inpart.
        * inpart.
        * intros w a l m H E. destruct (assoc_among _ _ E) as (X1 & X2 & X3). apply (Rset_step V W a _ l w [] [m]); [reflexivity| |reflexivity| |exact H].
          -- intros. now apply opt_miss.
          -- intros. apply mods_hit; auto. now constructor.
      + apply handles_replace; [reflexivity|]. intros a l t1 t2 f r; intros; apply (Rset_step V W a _ l _ _ [ModReplace f r]); [reflexivity| |reflexivity| |eassumption].
        * intros. apply opt_miss; [reflexivity|assumption].
        * intros. apply mods_hit; auto. now constructor.
      + apply handles_bare; [reflexivity|]. intros a l; intros; apply (Rset_step V W a _ l _ _ []); [reflexivity| | | |eassumption].
        * intros. apply opt_hit; reflexivity.
        * symmetry. apply app_nil_r.
        * intros. rewrite app_nil_r. now apply mods_miss.
    - intros W t a. destruct (a_var a) eqn:E.
      + eapply turns_weaken; [apply turns_eats; unfold the_string; eapply (eats_then K W _ _ (fun x us _ => string1 K W (t :: us) x)
          (fun r us _ => exists x, string1 K W (t :: us) x /\ r = inr (s_name (Some x) a))); [apply eats_str1|]; intro x; apply eats_ret; eauto|].
        cbv beta. intros r W' us ts [-> (x & HQ & ->)]. split; [eapply strings_shape; eauto|]. intros l H.
        unfold Rset in *. rewrite E in *. destruct H as (l1 & n & l2 & ms1 & ms2 & -> & P1 & P2 & X & Y & M1 & M2).
        exists l1, n, (l2 ++ [(None, t :: us)]), (t :: us), x, v, ms1, ms2. split; [now rewrite <- app_assoc|]. split; [exact P1|].
        split; [now apply pos_none|]. split; [exact E|]. split; [reflexivity|]. split; [exact X|]. split; [exact HQ|]. split; [exact Y|].
        split; [exact M1|]. unfold modifiers_are in *. rewrite filter_app. cbn [filter fst]. rewrite app_nil_r. exact M2.
      + unfold more. eapply turns_bind; [apply turns_variable_name|]. intros v W'. apply turns_done. intros ts us [-> (c & -> & X)].
        split; [left; exists (TStr c); split; [reflexivity|exact Logic.I]|]. intros l H.
        unfold Rset in *. rewrite E in *. destruct H as (-> & P & F & M). cbn [a_var s_var]. exists l, c, [], (a_mods a), [].
        split; [reflexivity|]. split; [exact P|]. split; [reflexivity|]. split; [apply flag_has in F; rewrite <- F; exact X|].
        split; [symmetry; apply app_nil_r|]. split; [exact M|]. constructor.
    - intros a W. apply turns_lift. intros var Ev. apply turns_lift. intros v Ex. apply turns_done.
      intros ts us (l & S & l1 & n & l2 & x & y & var' & ms1 & ms2 & -> & P & Q & R & Ey & T & U & Y & M1 & M2). rewrite app_nil_r.
      assert (var' = var) as -> by congruence. assert (y = v) as -> by congruence. rewrite Y. eapply is_set; eauto.
  Qed.
  Lemma turns_let V : turns K V (cmd_let K) (fun i W us _ => action_is K V "let" us i W).
  Proof.
    unfold cmd_let. eapply turns_after; [apply eats_next|]. intro t. eapply turns_bind; [apply turns_variable_name|]. intros v W.
    eapply turns_weaken; [apply turns_eats; eapply (eats_then K W _ _ _ (fun i us _ => exists e, expr_is K W us e /\ i = IxLet v e)); [apply eats_expr|];
      intro e; apply eats_ret; eauto|].
    cbv beta. intros i W' us ts [-> (e & X & ->)] u1 [-> (c & -> & Y)] u2 ->. now apply is_let.
  Qed.
  Lemma turns_flags V w a : In (w, a) [("setflag", FSet); ("addflag", FAdd); ("removeflag", FRemove)] ->
    turns K V (cmd_flags K FU (lit w)) (fun i W us _ => action_is K V w us i W).
  Proof.
    intros I. unfold cmd_flags.
    replace (if word "setflag" (lit w) then FSet else if word "addflag" (lit w) then FAdd else FRemove) with a
      by (cbn [In] in I; repeat (destruct I as [I|I]; [injection I as <- <-; reflexivity|]); contradiction).
    cbv zeta.
    assert (G : forall t k, turns K V (l <- strings_tok K FU t ;; ret (IxEditFlags a None l))
                 (fun i W vs ts => forall us, us = [] /\ seen k (vs ++ ts) -> forall us0, us0 = [t] -> action_is K V w (us0 ++ us ++ vs) i W)).
    { intros t k. eapply turns_weaken; [apply turns_eats; eapply (eats_then K V _ _ (fun l us _ => strings_are K V (t :: us) l)
        (fun i us _ => plain_action K V w (t :: us) i)); [apply eats_strings_tok|] |].
      - intro l. apply eats_ret. intros ts. split; [reflexivity|]. intros us H. now apply is_editflags.
      - cbv beta. intros i W us ts [-> X] ? [-> _] ? ->. now constructor. }
    eapply turns_after; [apply eats_next|]. intro t. eapply turns_after; [apply eats_peek|]. intro k. cbv beta.
    destruct t; try (apply turns_never; discriminate).
    - apply G.
    - destruct (starts_strings k).
      + eapply turns_bind; [apply (turns_variable_name K V (TStr c))|]. intros v W.
        eapply turns_weaken; [apply turns_eats; eapply (eats_then K W _ _ _ (fun i us _ => exists l, strings_are K W us l /\ i = IxEditFlags a (Some v) l));
          [apply eats_strings|]; intro l; apply eats_ret; eauto|].
        cbv beta. intros i W' us ts [-> (l & X & ->)] u1 [-> (c' & Ec & Y)] u2 [-> _] u3 ->. injection Ec as <-. eapply is_editflags_in; eauto.
      + destruct k as [| |t]; try (apply turns_never; discriminate). destruct t; try (apply turns_never; discriminate). apply G.
    - destruct k as [| |t]; try (apply turns_never; discriminate). destruct t; try (apply turns_never; discriminate). apply G.
  Qed.

  Lemma all_actions V : Forall (fun p => turns K V (snd (snd p)) (fun i W us _ => action_is K V (fst p) us i W)) (commands K FU).
  Proof.
    assert (S : forall x (f : value -> instruction), (forall us r, string1 K V us r -> plain_action K V x us (f r)) ->
              eats K V (r <- string K FU ;; ret (f r)) (fun i us _ => plain_action K V x us i)).
    { intros x f H. eapply eats_then; [apply eats_string|]. intro r. apply eats_ret. auto. }
    unfold commands. repeat (apply Forall_cons; [cbn [fst snd]; first
      [apply turns_extracttext|apply turns_set|apply turns_let|eapply turns_flags; cbn; tauto|apply turns_simple; first
      [apply eats_keep|apply eats_fileinto|apply eats_redirect|apply eats_replace|apply eats_enclose|apply eats_convert_a
      |apply eats_addheader|apply eats_deleteheader|apply eats_notify|apply S; now constructor
      |apply eats_ret; constructor
      |eapply eats_then; [apply eats_expr|]; intro e; apply eats_ret; intros ts; split; [reflexivity|]; intros us H; now constructor]]|]).
    constructor.
  Qed.
End Turns.
