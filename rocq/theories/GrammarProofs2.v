(** Proofs about the scripts the compiler accepts: tests and commands read arguments. *)
From Coq Require Import Lia.
From Verif Require Import Base Lib Address Var Value SetVar Flags Comparator Message EditHeader
  Expr ExprTok Event Notify AddrTest Vacation Sieve Utf8 Lexer Scope StringTok Compile ParseArgs ParseBase Parse GrammarSpec
  GrammarProofs.
Import ListNotations.
Local Open Scope string_scope.
Local Open Scope list_scope.

Section Args.
  Variable K : cenv.
  Variable FU : nat.
  Notation eats := (eats K).
  Notation silent := (silent K).
  Notation ar := (ar K).
  Notation an := (an K).

  Ltac head_of m := match m with ?f _ => head_of f | _ => m end.
  Create HintDb sil.
  Create HintDb arg.
  Ltac sil_step :=
    match goal with
    | |- forall _, _ => intro
    | |- GrammarProofs.silent _ (let (_, _) := ?x in _) => destruct x
    | |- GrammarProofs.silent _ fail => apply silent_fail
    | |- GrammarProofs.silent _ (ret _) => apply silent_ret
    | |- GrammarProofs.silent _ (get _) => apply silent_get
    | |- GrammarProofs.silent _ (lift _) => apply silent_lift
    | |- GrammarProofs.silent _ (peek _) => apply silent_peek
    | |- GrammarProofs.silent _ (modify _) => apply silent_modify; solve [split; reflexivity | let s := fresh in intro s; destruct (p_m s) as [|[ps v] ms]; split; reflexivity | let s := fresh in intro s; split; reflexivity]
    | |- GrammarProofs.silent _ (bind (next _) (fun _ => fail)) => apply silent_next_fail
    | |- GrammarProofs.silent _ (bind _ _) => apply silent_bind
    | |- GrammarProofs.silent _ (match ?x with _ => _ end) => destruct x
    | |- GrammarProofs.silent _ _ => solve [auto with sil]
    end.
  Ltac sil := repeat sil_step.
  Hint Resolve silent_tokenize silent_register silent_on_v silent_inside silent_push : sil.
  Lemma silent_va n c : silent (va K n c).
  Proof. unfold va, need. sil. Qed.
  Lemma silent_check b : silent (check K b).
  Proof. unfold check. sil. Qed.
  Lemma silent_reset : silent reset.
  Proof. unfold reset. sil. Qed.
  Lemma silent_validate m k : silent (validate_match K m k).
  Proof. unfold validate_match. sil. Qed.
  Lemma silent_register_all b l : silent (register_all K l b).
  Proof. induction l; cbn [register_all]; sil. Qed.
  Hint Resolve silent_va silent_check silent_reset silent_validate silent_register_all : sil.
  Lemma silent_envelope_caps l : silent (envelope_caps K l).
  Proof. induction l; cbn [envelope_caps]; sil. Qed.
  Lemma silent_globals l : silent (globals K l).
  Proof. induction l; cbn [globals]; sil. Qed.
  Lemma silent_push_match : silent push_match.
  Proof. unfold push_match. sil. Qed.
  Lemma silent_add_cap l c : silent (add_cap K l c).
  Proof. unfold add_cap, add_cap1. sil. Qed.
  Lemma silent_envelope_name c : silent (envelope_name K c).
  Proof. unfold envelope_name. sil. Qed.
  Hint Resolve silent_envelope_caps silent_globals silent_push_match silent_add_cap silent_envelope_name : sil.

  (** String lists *)
  Lemma eats_silent_ret {A B} (m : P A) (f : A -> B) (Q : B -> Prop) : silent m -> (forall a, Q (f a)) ->
    eats (a <- m ;; ret (f a)) (fun r us _ => us = [] /\ Q r).
  Proof. intros H1 H2. apply eats_silent; [exact H1|]. intro a. apply eats_ret. auto. Qed.
  Ltac lst :=
    match goal with
    | |- GrammarProofs.eats _ fail _ => apply eats_fail
    | |- GrammarProofs.eats _ (ret _) _ => apply eats_ret; intros; split; [reflexivity|]
    | |- GrammarProofs.eats _ (bind _ _) _ => apply eats_silent_ret; [sil|intros]
    | |- GrammarProofs.eats _ (match ?x with _ => _ end) _ => destruct x
    end.
  Ltac fin_lst := repeat lst; cbn; first [left; eexists; split; [reflexivity|exact Logic.I] | right; split; reflexivity | split; reflexivity | idtac].
  Definition nonempty {A} (l : list A) : bool := match l with [] => false | _ => true end.
  Lemma an_string_list : an TBracketOpen (string_list K FU false).
  Proof.
    apply an_list. unfold string_list. apply (list_loop K _ nonempty). intro l. apply (eats_step1 K). intro t. destruct t; fin_lst.
  Qed.
  Hint Resolve an_string_list : arg.
  Ltac ar_step :=
    match goal with
    | |- forall _, _ => intro
    | |- GrammarProofs.ar _ (bind (next _) _) => apply ar_next
    | |- GrammarProofs.an _ _ fail => apply an_fail
    | |- GrammarProofs.an _ (TStr _) _ => apply an_single; [apply single_str|]
    | |- GrammarProofs.an _ (TVar _) _ => apply an_single; [apply single_var|]
    | |- GrammarProofs.an _ (TNumber _) _ => apply an_single; [apply single_num|]
    | |- GrammarProofs.an _ (TTag _) _ => apply an_single; [apply single_tag|]
    | |- GrammarProofs.an _ ?t _ => solve [auto with arg]
    | |- GrammarProofs.ar _ _ => solve [auto with arg]
    | |- GrammarProofs.an _ ?t (match ?t with _ => _ end) => destruct t
    | |- GrammarProofs.an _ _ (bind _ _) => apply an_silent; [solve [sil]|]
    | |- GrammarProofs.an _ _ (bind _ _) => apply an_bind
    | |- GrammarProofs.ar _ (bind _ _) => apply ar_bind
    | |- GrammarProofs.an _ _ (match ?x with _ => _ end) => destruct x
    | |- GrammarProofs.ar _ _ => apply ar_silent; solve [sil]
    | |- GrammarProofs.ar _ (match ?x with _ => _ end) => destruct x
    | |- GrammarProofs.an _ _ (more _ _) => unfold more
    | |- GrammarProofs.an _ _ (done _ _) => unfold done
    | |- GrammarProofs.ar _ (more _ _) => unfold more
    | |- GrammarProofs.ar _ (done _ _) => unfold done
    end.
  Ltac arx := repeat ar_step.
  Lemma an_string_tok t : an t (string_tok K t).
  Proof. unfold string_tok. arx. Qed.
  Lemma an_strings_tok t : an t (strings_tok K FU t).
  Proof. unfold strings_tok. arx. Qed.
  Hint Resolve an_string_tok an_strings_tok : arg.
  Lemma ar_string : ar (string K FU).
  Proof. unfold string. arx. Qed.
  Lemma ar_strings : ar (strings K FU).
  Proof. unfold strings. arx. Qed.
  Lemma ar_static_string : ar (static_string K FU).
  Proof.
    unfold static_string. apply ar_next. intro t. destruct t; arx.
    apply an_list. apply (list_loop K _ (fun o : option text => match o with Some _ => true | None => false end)). intro l.
    apply (eats_step1 K). intro t. destruct t; fin_lst.
  Qed.
  Lemma ar_static_strings : ar (static_strings K FU).
  Proof.
    unfold static_strings. apply ar_next. intro t. destruct t; arx.
    apply an_list. apply (list_loop K _ nonempty). intro l. apply (eats_step1 K). intro t. destruct t; fin_lst.
  Qed.
  Lemma an_envelope_list t : an t (envelope_list K FU t).
  Proof.
    unfold envelope_list. destruct t; arx.
    apply an_list. apply (list_loop K _ nonempty). intro l. apply (eats_step1 K). intro t. destruct t; fin_lst.
  Qed.
  Lemma ar_expr : ar (parse_expr K).
  Proof.
    unfold parse_expr. apply ar_next. intro t. destruct t; try (intros ? ? ? ? E F; discriminate).
    - apply an_single; [apply single_str|]. apply ar_silent, silent_bind; [sil|]. intro src. apply silent_same. intros s a s' E.
      destruct (compile_text _ _ _); try discriminate. now injection E as <- <-.
    - apply an_single; [apply single_var|]. apply ar_silent, silent_bind; [sil|]. intro src. apply silent_same. intros s a s' E.
      destruct (compile_text _ _ _); try discriminate. now injection E as <- <-.
  Qed.
  Hint Resolve ar_string ar_strings ar_static_string ar_static_strings an_envelope_list ar_expr : arg.
  Lemma ar_number n : ar (number K n).
  Proof. unfold number. arx. Qed.
  Lemma ar_match_type w : ar (match_type K w).
  Proof. unfold match_type. arx. Qed.
  Lemma ar_comparator : ar (parse_comparator K FU).
  Proof. unfold parse_comparator. arx. Qed.
  Lemma an_variable_name t b : an t (variable_name K t b).
  Proof. unfold variable_name. arx. Qed.
  Lemma an_date_tok t : an t (date_tok K t).
  Proof. unfold date_tok. arx. Qed.
  Lemma ar_timezone : ar (timezone K).
  Proof. unfold timezone. arx. Qed.
  Hint Resolve ar_number ar_match_type ar_comparator an_variable_name an_date_tok ar_timezone : arg.

  Lemma ar_read_args hs dflt : Forall (fun h : handler => forall w a, ar (snd h w a)) hs -> (forall t a, an t (dflt t a)) ->
    ar (read_args K FU hs dflt).
  Proof.
    intros Hh Hd. unfold read_args. apply ar_loop. intro a. unfold step_args. apply ar_next. intro t. destruct t; try apply Hd.
    assert (D : match dispatch hs w with Some h => forall a, ar (h a) | None => True end).
    { clear - Hh. induction Hh as [|[f h] hs X Y IH]; cbn; [exact Logic.I|]. destruct (f w); [intro; apply X|exact IH]. }
    destruct (dispatch hs w); [|apply Hd]. apply an_single; [apply single_tag|]. apply ar_bind; [apply D|]. arx.
  Qed.
  Lemma ar_h_replace a : ar (snd (h_replace K) (lit "replace") a).
  Proof.
    cbn [h_replace snd]. eapply eats_bind; [apply eats_next|]. intro x. eapply eats_bind; [apply eats_next|]. intro y.
    destruct x; cbn [string_tok]; try (intros ? ? ? ? E F; discriminate); destruct y; cbn [string_tok];
      try (apply eats_silent; [sil|]; intro; intros ? ? ? ? E F; discriminate);
      (apply eats_silent; [sil|]; intro; apply eats_silent; [sil|]; intro; apply eats_ret; intros ts us -> vs ->; cbn;
       repeat (apply arguments_cons; [apply arg_string; exact Logic.I|]); apply arguments_nil).
  Qed.
  Ltac hs := repeat (apply Forall_cons; [intros w a;
      cbn [snd h_match h_part h_comparator h_index h_flag h_string h_strings h_last h_mime h_any h_mimeopts h_modifier h_local];
      first [apply ar_h_replace | solve [arx]]|]); apply Forall_nil.
  Ltac args := apply ar_bind; [apply ar_read_args; [hs|intros t a; unfold names_keys, two_keys, the_string; arx]|intro a; arx].
  Lemma ar_test_address : ar (test_address K FU). Proof. unfold test_address. args. Qed.
  Lemma ar_test_header : ar (test_header K FU). Proof. unfold test_header. args. Qed.
  Lemma ar_test_body : ar (test_body K FU). Proof. unfold test_body. args. Qed.
  Lemma ar_test_date : ar (test_date K FU). Proof. unfold test_date. args. Qed.
  Lemma ar_test_currentdate : ar (test_currentdate K FU). Proof. unfold test_currentdate. args. Qed.
  Lemma ar_test_envelope : ar (test_envelope K FU). Proof. unfold test_envelope. args. Qed.
  Lemma ar_test_environment : ar (test_environment K FU). Proof. unfold test_environment. args. Qed.
  Lemma ar_test_exists : ar (test_exists K FU). Proof. unfold test_exists. args. Qed.
  Lemma ar_test_hasflag : ar (test_hasflag K FU). Proof. unfold test_hasflag. args. Qed.
  Lemma ar_test_metadata : ar (test_metadata K FU). Proof. unfold test_metadata. args. Qed.
  Lemma ar_test_nmc : ar (test_notify_method_capability K FU). Proof. unfold test_notify_method_capability. args. Qed.
  Lemma ar_test_servermetadata : ar (test_servermetadata K FU). Proof. unfold test_servermetadata. args. Qed.
  Lemma ar_test_spamtest : ar (test_spamtest K FU). Proof. unfold test_spamtest. args. Qed.
  Lemma ar_test_virustest : ar (test_virustest K FU). Proof. unfold test_virustest. args. Qed.
  Lemma ar_test_string : ar (test_string K FU). Proof. unfold test_string. args. Qed.
  Lemma ar_test_specialuse : ar (test_specialuse K FU). Proof. unfold test_specialuse. arx. Qed.
  Lemma ar_test_size : ar (test_size K).
  Proof.
    unfold test_size. apply ar_next. intro t. destruct t; cbn [lift]; try (intros ? ? ? ? E F; discriminate). arx.
  Qed.

  Lemma eats_peek_next {A} (k : peeked -> P A) (Q : A -> list tok -> list tok -> Prop) :
    (forall p, eats (k p) (fun a us ts => seen p (us ++ ts) -> Q a us ts)) -> eats (bind (peek K) k) Q.
  Proof.
    intro H. eapply eats_bind; [apply eats_peek|]. intro p. eapply eats_weaken; [apply H|]. cbv beta. intros a us ts X vs [-> S].
    exact (X S).
  Qed.
  Lemma eats_next_seen {A} (k : tok -> P A) t (Q : A -> list tok -> list tok -> Prop) :
    (forall u, eats (k u) (fun a us ts => u = t -> Q a (u :: us) ts)) ->
    eats (bind (next K) k) (fun a us ts => seen (KTok t) (us ++ ts) -> Q a us ts).
  Proof.
    intro H. eapply eats_bind; [apply eats_next|]. intro u. eapply eats_weaken; [apply H|]. cbv beta. intros a us ts X vs -> (x & E).
    cbn in E. injection E as -> _. auto.
  Qed.
  Lemma ar_duplicate_tags : Forall (fun h : handler => forall w a, ar (snd h w a)) (duplicate_tags K FU).
  Proof. unfold duplicate_tags. hs. Qed.
  Lemma ar_test_duplicate : ar (test_duplicate K FU).
  Proof.
    unfold test_duplicate. apply ar_bind; [|arx]. apply ar_loop. intro a. apply eats_peek_next. intro p.
    destruct p as [ | |t]; [|apply eats_fail|].
    - apply eats_ret. intros. apply arguments_nil.
    - destruct t; try (apply eats_ret; intros; apply arguments_nil).
      pose proof ar_duplicate_tags as Hh.
      assert (D : match dispatch (duplicate_tags K FU) w with Some h => forall a, ar (h a) | None => True end).
      { clear - Hh. induction Hh as [|[f h] hs X Y IH]; cbn; [exact Logic.I|]. destruct (f w); [intro; apply X|exact IH]. }
      destruct (dispatch _ w); [|apply eats_ret; intros; apply arguments_nil].
      apply (eats_next_seen _ _ (fun _ us _ => arguments us)). intro u.
      eapply eats_weaken; [apply (ar_bind K); [apply D|intro; apply ar_silent; sil]|]. cbv beta. intros r us ts X ->.
      apply arguments_cons; [apply single_tag|exact X].
  Qed.
  Hint Resolve ar_test_address ar_test_header ar_test_body ar_test_date ar_test_currentdate ar_test_envelope ar_test_environment
    ar_test_exists ar_test_hasflag ar_test_metadata ar_test_nmc ar_test_servermetadata ar_test_spamtest ar_test_virustest ar_test_string
    ar_test_specialuse ar_test_size ar_test_duplicate : arg.
  Lemma ar_tests : Forall (fun p => ar (snd (snd p)) /\ named test_names (lit (fst p))) (tests K FU).
  Proof.
    unfold tests. repeat (apply Forall_cons; [cbn [fst snd]; split; [|apply in_map; cbn; tauto]|]); try apply Forall_nil.
    all: try solve [auto with arg].
    all: unfold test_convert, test_valid_notify_method, test_valid_ext_list, test_ihave, test_mailboxexists, test_metadataexists,
      test_servermetadataexists, test_mailboxidexists; arx.
  Qed.

  (** Commands *)
  Lemma ar_cmd_keep : ar (cmd_keep K FU).
  Proof.
    unfold cmd_keep. apply eats_peek_next. intro p. destruct p as [ | |t]; try (apply eats_ret; intros; apply arguments_nil).
    destruct t; try (apply eats_ret; intros; apply arguments_nil). destruct (word "flags" w); [|apply eats_ret; intros; apply arguments_nil].
    apply (eats_next_seen _ _ (fun _ us _ => arguments us)). intro u.
    match goal with |- GrammarProofs.eats _ ?m _ => assert (X : ar m) by arx end.
    eapply eats_weaken; [exact X|]. cbv beta. intros r us ts Y ->. apply arguments_cons; [apply single_tag|exact Y].
  Qed.
  Lemma ar_cmd_fileinto : ar (cmd_fileinto K FU). Proof. unfold cmd_fileinto. args. Qed.
  Lemma ar_cmd_redirect : ar (cmd_redirect K FU). Proof. unfold cmd_redirect. args. Qed.
  Lemma ar_cmd_replace : ar (cmd_replace K FU). Proof. unfold cmd_replace. args. Qed.
  Lemma ar_cmd_enclose : ar (cmd_enclose K FU). Proof. unfold cmd_enclose. args. Qed.
  Lemma ar_cmd_extracttext : ar (cmd_extracttext K FU). Proof. unfold cmd_extracttext. args. Qed.
  Lemma ar_cmd_convert : ar (cmd_convert K FU). Proof. unfold cmd_convert. arx. Qed.
  Lemma ar_cmd_addheader : ar (cmd_addheader K FU). Proof. unfold cmd_addheader. args. Qed.
  Lemma ar_cmd_deleteheader : ar (cmd_deleteheader K FU). Proof. unfold cmd_deleteheader. args. Qed.
  Lemma ar_cmd_set : ar (cmd_set K FU). Proof. unfold cmd_set. args. Qed.
  Lemma ar_cmd_let : ar (cmd_let K). Proof. unfold cmd_let. arx. Qed.
  Lemma silent_string_tok t : silent (string_tok K t). Proof. unfold string_tok. sil. Qed.
  Lemma ar_string_tok t : ar (string_tok K t). Proof. apply ar_silent, silent_string_tok. Qed.
  Hint Resolve ar_string_tok : arg.
  Lemma ar_cmd_notify : ar (cmd_notify K FU). Proof. unfold cmd_notify. args. Qed.
  Lemma ar_cmd_vacation : ar (cmd_vacation K FU). Proof. unfold cmd_vacation. args. Qed.
  Lemma ar_cmd_flags w : ar (cmd_flags K FU w). Proof. unfold cmd_flags. cbv zeta. arx. all: unfold variable_name, strings_tok; apply ar_silent; sil. Qed.
  Lemma ar_cmd_include : ar (cmd_include K FU). Proof. unfold cmd_include. args. Qed.
  Hint Resolve ar_cmd_keep ar_cmd_fileinto ar_cmd_redirect ar_cmd_replace ar_cmd_enclose ar_cmd_extracttext ar_cmd_convert ar_cmd_addheader
    ar_cmd_deleteheader ar_cmd_set ar_cmd_let ar_cmd_notify ar_cmd_vacation ar_cmd_flags ar_cmd_include : arg.
  Lemma ar_commands : Forall (fun p => ar (snd (snd p)) /\ named action_names (lit (fst p))) (commands K FU).
  Proof.
    unfold commands. repeat (apply Forall_cons; [cbn [fst snd]; split; [|apply in_map; cbn; tauto]|]); try apply Forall_nil.
    all: arx.
  Qed.
End Args.
