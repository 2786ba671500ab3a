(** The parsers of tests and actions only build instructions whose extensions are
    required. *)
From Coq Require Import Lia.
From Verif Require Import Base Lib Address Var Value SetVar Flags Comparator Message EditHeader
  Expr ExprTok Event Notify AddrTest Vacation Sieve Utf8 Lexer Scope StringTok Run RunSpec Compile CompileSpec ParseArgs ParseBase
  Parse ParseSpec ParseCaps1.
Import ListNotations.
Local Open Scope string_scope.

Lemma given_index a : given (the_index a) = given (a_index a).
Proof. unfold the_index. destruct (a_last a), (a_index a); reflexivity. Qed.

Section Caps.
  Variable K : cenv.
  Variable FU : nat.
  Variable cs : list (list capability).
  Notation has := (has K cs).
  Notation allc := (allc K cs).
  Notation pc := (pc cs).
  Notation given_cap := (given_cap K cs).
  Notation st m := (pc m always).
  Hint Resolve pc_next pc_peek pc_tokenize pc_register pc_on_v pc_expr pc_push_match pc_reset pc_get pc_expect pc_number
    pc_static_string pc_static_strings pc_string_tok pc_string_list pc_string pc_strings_tok pc_strings pc_comparator
    pc_validate pc_check pc_variable_name pc_ignore_instruction pc_ignore_test pc_timezone pc_date_tok pc_envelope_list
    pc_register_all : pc.
  Lemma pc_bind_lift {A B} (o : option A) (k : A -> P B) R : (forall a, o = Some a -> pc (k a) R) -> pc (bind (lift o) k) R.
  Proof. intro H. destruct o as [a|]; [|intros s b s' C E; discriminate]. exact (H a eq_refl). Qed.
  Ltac pc_step :=
    match goal with
    | |- forall _, _ => intro
    | |- ParseCaps1.pc _ (ret _) _ => apply pc_ret; try exact Logic.I
    | |- ParseCaps1.pc _ fail _ => apply pc_fail
    | |- ParseCaps1.pc _ (lift _) _ => apply pc_lift; intros; try exact Logic.I
    | |- ParseCaps1.pc _ (bind (va _ _ _) _) _ => eapply pc_bind; [apply (pc_va K)|cbv beta]
    | |- ParseCaps1.pc _ (bind (lift _) _) _ => apply pc_bind_lift; intros ? HL
    | |- ParseCaps1.pc _ (bind (envelope_caps _ _) _) _ => eapply pc_bind; [apply (pc_envelope_caps K)|cbv beta]
    | |- ParseCaps1.pc _ (bind _ _) _ => apply pc_bind_st
    | |- ParseCaps1.pc _ (loop _ _ _) always => apply pc_loop_st
    | |- ParseCaps1.pc _ (match ?x with _ => _ end) _ => destruct x eqn:?
    | |- ParseCaps1.pc _ (if ?x then _ else _) _ => destruct x eqn:?
    | |- ParseCaps1.pc _ _ always => solve [auto with pc]
    end.
  Ltac pcs := repeat pc_step.

  Section J.
  Variable idx tz : bool.
  Variable mb : String.string.
  Notation J := (J K cs idx tz mb).
  Notation JH := (JH K cs idx tz mb).
  Notation JD := (JD K cs idx tz mb).
  Lemma JH_match n b : JH (h_match K n b).
  Proof.
    intros w a W Ja. cbn [h_match fst snd] in *. eapply pc_bind; [apply (pc_va K)|]. intros x G. cbv beta in G.
    eapply pc_bind; [apply (pc_match_type K); [|exact G]|].
    - unfold oneof in *. destruct b; [exact W|]. unfold match_words in *. rewrite existsb_app in *. cbn in W. rewrite !orb_false_r in W.
      cbn. rewrite !orb_false_r. now rewrite W.
    - intros m Hm. apply pc_ret. destruct Ja as (H1 & H2). split; [exact Hm|exact H2].
  Qed.
  Lemma JH_part ws : JH (h_part K ws).
  Proof.
    intros w a W Ja. cbn [h_part fst snd] in *. eapply pc_bind; [apply (pc_va K)|]. intros x G. cbv beta in G. apply pc_ret.
    destruct Ja as (H1 & H2 & H3). split; [exact H1|]. split; [|exact H3]. unfold address_part, s_part. cbn [a_part].
    unfold oneof, existsb in G.
    destruct (word "localpart" w); [constructor|]. destruct (word "domain" w); [constructor|].
    destruct (word "user" w); [apply allc1; exact G|]. destruct (word "detail" w); [apply allc1; exact G|].
    destruct (word "name" w); constructor.
  Qed.
  End J.
  Ltac Jt :=
    unfold ParseCaps1.JD; cbv beta iota;
    repeat match goal with H : ParseCaps1.J _ _ _ _ _ _ |- _ => unfold ParseCaps1.J in H; decompose [and] H; clear H end;
    unfold ParseCaps1.J, s_part, s_m, s_c, s_index, s_last, s_mime, s_any, s_opts, s_vals, s_name, s_name2, s_date, s_zone, s_tz, s_env,
      s_body, s_local, s_percent, s_handle, s_dup, s_secs, s_copy, s_create, s_flags, s_mbid, s_special, s_list, s_trace, s_bymode,
      s_rlimit, s_alimit, s_ret, s_dsn, s_subject, s_from, s_headers, s_mods, s_first, s_var, s_msg, s_imp, s_nopts, s_fcc, s_period,
      s_addrs, s_once, s_optional, s_global;
    cbn [a_m a_part a_index a_any a_opts a_tz a_env a_percent a_copy a_create a_flags a_mbid a_special a_list a_alimit a_rlimit a_ret
         a_dsn a_fcc a_period];
    repeat match goal with |- _ /\ _ => split end;
    repeat match goal with H : ?e = true |- _ => match type of e with bool => rewrite H end end;
    try assumption;
    try (cbn [given opt orb match_ext part_ext]; first [apply allc1; assumption | apply allc_opt, allc1; assumption | exact Logic.I | constructor | match goal with |- ParseCaps1.allc _ _ (match ?x with _ => _ end) => destruct x; first [apply allc_nil|apply allc1; assumption] end | idtac]).
  Ltac hs := repeat (apply Forall_cons; [first [apply JH_match|apply JH_part|intros w a W Ja; cbn [fst snd h_comparator h_index h_flag h_string h_strings h_last
                     h_mime h_any h_part h_mimeopts h_modifier h_replace h_local] in *; pcs; Jt]|]); apply Forall_nil.
  Ltac args i t m := eapply pc_bind; [apply (pc_read_args _ _ _ i t m);
      [hs|intros t0 a Ja; unfold names_keys, two_keys, the_string, more, done; pcs; Jt]|intros a Ja].
  Lemma allc_fcc a : allc (opt (given (a_fcc a)) ["fcc"]) -> allc (opt (nonempty_list (a_flags a)) ["imap4flags"]) ->
    allc (opt (given (a_mbid a)) ["mailboxid"]) -> allc (opt (given (a_special a)) ["special-use"]) -> allc (opt (a_create a) ["mailbox"]) ->
    allc (fcc_ext (the_fcc a)).
  Proof.
    intros. unfold the_fcc. destruct (a_fcc a); cbn [option_map fcc_ext]; [|apply allc_nil]. repeat apply allc_app; assumption.
  Qed.
  Lemma allc_by a : allc (opt (given (a_alimit a) || given (a_rlimit a)) ["redirect-deliverby"]) ->
    allc (match (match a_alimit a, a_rlimit a with
                 | Some x, _ => ByAbsolute x (a_bymode a) (a_trace a)
                 | None, Some n => ByRelative n (a_bymode a) (a_trace a)
                 | None, None => ByNone
                 end) with ByNone => [] | _ => ["redirect-deliverby"] end).
  Proof. destruct (a_alimit a), (a_rlimit a); exact (fun H => H). Qed.
  Ltac ext :=
    try match goal with |- _ /\ harmless _ => split; [|split; reflexivity] end;
    repeat match goal with H : ParseCaps1.J _ _ _ _ _ _ |- _ => unfold ParseCaps1.J in H; decompose [and] H; clear H end;
    cbn [test_ext extensions_with the_fcc fcc_ext option_map]; unfold index_ext; rewrite ?given_index;
    repeat first [assumption | apply allc_app | apply allc1; assumption | apply allc_nil | apply allc_opt, allc1; assumption
                 | apply allc_fcc; assumption | apply allc_by; assumption].
  Notation okt := (fun t => allc (test_ext t)).
  Notation oki := (fun i => allc (extensions_with "mailbox" i) /\ harmless i).

  Lemma dispatch_st hs w h : Forall (fun g : handler => forall w a, st (snd g w a)) hs -> dispatch hs w = Some h -> forall a, st (h a).
  Proof.
    induction hs as [|[f g] hs IH]; intros F E a; [discriminate|]. inversion F; subst. cbn [dispatch] in E.
    destruct (f w); [|eauto]. injection E as <-. apply H1.
  Qed.
  Lemma ok_address : pc (test_address K FU) okt.
  Proof. unfold test_address. args true false "mailbox". pcs; ext. Qed.
  Lemma ok_header : pc (test_header K FU) okt.
  Proof. unfold test_header. args true false "mailbox". pcs; ext. Qed.
  Lemma ok_body : has (cap "body") -> pc (test_body K FU) okt.
  Proof. intro Hc. unfold test_body. args true false "mailbox". pcs; ext. Qed.
  Lemma ok_date : has (cap "date") -> pc (test_date K FU) okt.
  Proof. intro Hc. unfold test_date. args true false "mailbox". pcs; ext. Qed.
  Lemma ok_currentdate : has (cap "date") -> pc (test_currentdate K FU) okt.
  Proof. intro Hc. unfold test_currentdate. args true false "mailbox". pcs; ext. Qed.
  Lemma ok_duplicate : has (cap "duplicate") -> pc (test_duplicate K FU) okt.
  Proof. intro Hc. unfold test_duplicate. apply pc_bind_st; [|intro; apply pc_ret; ext]. pcs. eapply dispatch_st; [|eassumption]. repeat (apply Forall_cons; [intros ? ?; cbn [snd h_string h_flag]; pcs|]). apply Forall_nil. Qed.
  Lemma ok_envelope : has (cap "envelope") -> pc (test_envelope K FU) okt.
  Proof. intro Hc. 
    unfold test_envelope. eapply pc_bind; [apply (pc_read_args _ _ _ true true "mailbox"); [hs|]|intros a Ja].
    - intros t0 a Ja. destruct (a_env a) eqn:E; [unfold done; pcs; Jt|].
      apply (pc_more _ _ _ _ _ _ (fun l => allc (flat_map envelope_ext l))); [|intros l Hl; Jt].
      apply pc_bind_st; [auto with pc|]. intro l. eapply pc_bind; [apply (pc_envelope_caps K)|].
      intros x Hx. apply pc_ret. exact Hx.
    - pcs. ext. match goal with H : allc (match a_env a with _ => _ end) |- _ => rewrite HL in H; exact H end.
  Qed.
  Lemma ok_environment : has (cap "environment") -> pc (test_environment K FU) okt.
  Proof. intro Hc. unfold test_environment. args true false "mailbox". pcs; ext. Qed.
  Lemma ok_exists : pc (test_exists K FU) okt.
  Proof. unfold test_exists. args true false "mailbox". pcs; ext. Qed.
  Lemma ok_hasflag : has (cap "imap4flags") -> pc (test_hasflag K FU) okt.
  Proof. intro Hc. unfold test_hasflag. args true false "mailbox". pcs; ext. Qed.
  Lemma ok_ihave : has (cap "ihave") -> pc (test_ihave K FU) okt.
  Proof. intro Hc. unfold test_ihave. pcs; ext. Qed.
  Lemma ok_mailboxexists : has (cap "mailbox") -> pc (test_mailboxexists K FU) okt.
  Proof. intro Hc. unfold test_mailboxexists. pcs; ext. Qed.
  Lemma ok_metadataexists : has (cap "mboxmetadata") -> pc (test_metadataexists K FU) okt.
  Proof. intro Hc. unfold test_metadataexists. pcs; ext. Qed.
  Lemma ok_servermetadataexists : has (cap "servermetadata") -> pc (test_servermetadataexists K FU) okt.
  Proof. intro Hc. unfold test_servermetadataexists. pcs; ext. Qed.
  Lemma ok_mailboxidexists : has (cap "mailboxid") -> pc (test_mailboxidexists K FU) okt.
  Proof. intro Hc. unfold test_mailboxidexists. pcs; ext. Qed.
  Lemma ok_valid_ext_list : has (cap "extlists") -> pc (test_valid_ext_list K FU) okt.
  Proof. intro Hc. unfold test_valid_ext_list. pcs; ext. Qed.
  Lemma ok_valid_notify_method : has (cap "enotify") -> pc (test_valid_notify_method K FU) okt.
  Proof. intro Hc. unfold test_valid_notify_method. pcs; ext. Qed.
  Lemma ok_convert : has (cap "convert") -> pc (test_convert K FU) okt.
  Proof. intro Hc. unfold test_convert. pcs; ext. Qed.
  Lemma ok_metadata : has (cap "mboxmetadata") -> pc (test_metadata K FU) okt.
  Proof. intro Hc. unfold test_metadata. args true false "mailbox". pcs; ext. Qed.
  Lemma ok_notify_method_capability : has (cap "enotify") -> pc (test_notify_method_capability K FU) okt.
  Proof. intro Hc. unfold test_notify_method_capability. args true false "mailbox". pcs; ext. Qed.
  Lemma ok_servermetadata : has (cap "servermetadata") -> pc (test_servermetadata K FU) okt.
  Proof. intro Hc. unfold test_servermetadata. args true false "mailbox". pcs; ext. Qed.
  Lemma ok_size : pc (test_size K) okt.
  Proof. unfold test_size. pcs; ext. Qed.
  Lemma ok_spamtest : has (cap "spamtest") -> pc (test_spamtest K FU) okt.
  Proof. intro Hc. unfold test_spamtest. args true false "mailbox". pcs; ext. Qed.
  Lemma ok_virustest : has (cap "virustest") -> pc (test_virustest K FU) okt.
  Proof. intro Hc. unfold test_virustest. args true false "mailbox". pcs; ext. Qed.
  Lemma ok_specialuse : has (cap "special-use") -> pc (test_specialuse K FU) okt.
  Proof. intro Hc. unfold test_specialuse. pcs; ext. Qed.
  Lemma ok_string : has (cap "variables") -> pc (test_string K FU) okt.
  Proof. intro Hc. unfold test_string. args true false "mailbox". pcs; ext. Qed.
  Lemma has1 n : allc [n] -> has (cap n).
  Proof. intro H. inversion H. assumption. Qed.
  Lemma ok_leaf w : pc (leaf K FU w) oki.
  Proof.
    unfold leaf. destruct (word "eval" w); [pcs; ext|]. destruct (find_word w (tests K FU)) as [[c m]|] eqn:E; [|pcs; ext].
    assert (F : Forall (fun x => given_cap (fst (snd x)) -> pc (snd (snd x)) okt) (tests K FU)).
    { unfold tests. repeat (apply Forall_cons; [cbn [fst snd ParseCaps1.given_cap]|]); [..|apply Forall_nil].
      all: first [intros _; apply ok_address|intros _; apply ok_header|apply ok_body|apply ok_date|apply ok_currentdate|apply ok_duplicate|apply ok_envelope|apply ok_environment|intros _; apply ok_exists|apply ok_hasflag|apply ok_ihave|apply ok_mailboxexists|apply ok_metadataexists|apply ok_servermetadataexists|apply ok_mailboxidexists|apply ok_valid_ext_list|apply ok_valid_notify_method|apply ok_convert|apply ok_metadata|apply ok_notify_method_capability|apply ok_servermetadata|intros _; apply ok_size|apply ok_spamtest|apply ok_virustest|apply ok_specialuse|apply ok_string]. }
    assert (G : given_cap c -> pc m okt).
    { clear - E F. induction F as [|[n [c' m']] l H _ IH]; cbn [find_word] in E; [discriminate|].
      destruct (word n w); [|auto]. injection E as <- <-. exact H. }
    eapply pc_bind; [apply (pc_va K)|]. intros x Hc. eapply pc_bind; [exact (G Hc)|]. intros t Ht. apply pc_ret. split; [exact Ht|split; reflexivity].
  Qed.
  Lemma ok_c_keep : pc (cmd_keep K FU) oki.
  Proof. unfold cmd_keep. pcs; ext. Qed.
  Lemma ok_c_fileinto : has (cap "fileinto") -> pc (cmd_fileinto K FU) oki.
  Proof. intro Hc. unfold cmd_fileinto. args true false "mailbox". pcs; ext. Qed.
  Lemma ok_c_redirect : pc (cmd_redirect K FU) oki.
  Proof. unfold cmd_redirect. args true false "mailbox". pcs; ext. Qed.
  Lemma ok_c_replace : has (cap "replace") -> pc (cmd_replace K FU) oki.
  Proof. intro Hc. unfold cmd_replace. args true false "mailbox". pcs; ext. Qed.
  Lemma ok_c_enclose : has (cap "enclose") -> pc (cmd_enclose K FU) oki.
  Proof. intro Hc. unfold cmd_enclose. args true false "mailbox". pcs; ext. Qed.
  Lemma ok_c_extracttext : has (cap "extracttext") -> pc (cmd_extracttext K FU) oki.
  Proof. intro Hc. unfold cmd_extracttext. args true false "mailbox". pcs; ext. Qed.
  Lemma ok_c_convert : has (cap "convert") -> pc (cmd_convert K FU) oki.
  Proof. intro Hc. unfold cmd_convert. pcs; ext. Qed.
  Lemma ok_c_addheader : has (cap "editheader") -> pc (cmd_addheader K FU) oki.
  Proof. intro Hc. unfold cmd_addheader. args true false "mailbox". pcs; ext. Qed.
  Lemma ok_c_deleteheader : has (cap "editheader") -> pc (cmd_deleteheader K FU) oki.
  Proof. intro Hc. unfold cmd_deleteheader. args false false "mailbox". pcs; ext. Qed.
  Lemma ok_c_set : has (cap "variables") -> pc (cmd_set K FU) oki.
  Proof. intro Hc. unfold cmd_set. args true false "mailbox". pcs; ext. Qed.
  Lemma ok_c_let : has (cap "vnd.stalwart.expressions") -> pc (cmd_let K) oki.
  Proof. intro Hc. unfold cmd_let. pcs; ext. Qed.
  Lemma ok_c_notify : has (cap "enotify") -> pc (cmd_notify K FU) oki.
  Proof. intro Hc. unfold cmd_notify. args true false "mailboxid". pcs; ext. Qed.
  Lemma ok_c_include : has (cap "include") -> pc (cmd_include K FU) oki.
  Proof. intro Hc. unfold cmd_include. args true false "mailbox". pcs; ext. Qed.
  Lemma ok_c_flags w : has (cap "imap4flags") -> pc (cmd_flags K FU w) oki.
  Proof. intro Hc. unfold cmd_flags. pcs; ext. Qed.
  Lemma ok_c_vacation : has (cap "vacation") ->
    pc (cmd_vacation K FU) (fun p => (allc (test_ext (fst p)) /\ allc (extensions_with "mailbox" (snd p))) /\
      is_vacation_test (IxTest (fst p)) = true /\ targets (snd p) = []).
  Proof. intro Hc. unfold cmd_vacation. args true false "mailboxid". pcs. cbn [fst snd]. split; [split; ext|split; reflexivity]. Qed.
  Lemma ok_commands : Forall (fun x => given_cap (fst (snd x)) -> pc (snd (snd x)) oki) (commands K FU).
  Proof.
    unfold commands. repeat (apply Forall_cons; [cbn [fst snd ParseCaps1.given_cap]; intro Hc|]); [..|apply Forall_nil].
    all: first [apply ok_c_keep|apply ok_c_fileinto|apply ok_c_redirect|apply ok_c_replace|apply ok_c_enclose|apply ok_c_extracttext
      |apply ok_c_convert|apply ok_c_addheader|apply ok_c_deleteheader|apply ok_c_set|apply ok_c_let|apply ok_c_notify|apply ok_c_flags
      |pcs; ext]; assumption.
  Qed.
  Lemma ok_command w c m : find_word w (commands K FU) = Some (c, m) -> given_cap c -> pc m oki.
  Proof.
    intro E. pose proof ok_commands as F. induction F as [|[n [c' m']] l H _ IH]; cbn [find_word] in E; [discriminate|].
    destruct (word n w); [|auto]. injection E as <- <-. exact H.
  Qed.
End Caps.
