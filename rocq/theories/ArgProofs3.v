(** Proofs that each test carries what its arguments say. *)
From Coq Require Import Lia.
From Verif Require Import Base Lib Address Var Value SetVar Flags Comparator Message EditHeader
  Expr ExprTok Event Notify AddrTest Vacation Sieve Utf8 Lexer Scope StringTok HeaderVar Compile ParseArgs ParseBase Parse GrammarSpec
  GrammarProofs GrammarProofs2 GrammarProofs3 ArgBase ArgSpec ArgProofs1 ArgProofs2.
Import ListNotations.
Local Open Scope string_scope.
Local Open Scope list_scope.

Section Common.
  Variable K : cenv.
  Variable V : vst.
  Variable FU : nat.
  Notation L := (C_L K).
  Notation eats := (eats K V).
  Notation silent := (silent K V).
  Notation strings_are := (strings_are K V).
  Notation string1 := (string1 K V).

  Lemma eats_val {A B} (m : P A) (S : A -> Prop) (k : A -> P B) (Q : B -> list tok -> list tok -> Prop) :
    silent m -> (forall s a s', m s = Ok a s' -> S a) -> (forall v, S v -> eats (k v) Q) -> eats (bind m k) Q.
  Proof.
    intros [M0 M] HS Hk. split.
    - intros s b s' E EV. unfold bind in E. destruct (m s) as [a s1| | |] eqn:E1; try discriminate.
      eapply (proj1 (Hk a (HS _ _ _ E1))); eauto.
    - intros s b s' ts E EV F. unfold bind in E. destruct (m s) as [a s1| | |] eqn:E1; try discriminate.
      destruct (proj2 (Hk a (HS _ _ _ E1)) _ _ _ _ E (M0 _ _ _ E1 EV) F) as (vs & G & S1 & X).
      destruct (M _ _ _ _ E1 EV G) as (us & G' & S' & ->). exists vs. repeat split; auto. congruence.
  Qed.
  Lemma silent_lift {A} (o : option A) : silent (lift o).
  Proof. apply eats_lift. reflexivity. Qed.
  Lemma eats_lift_then {A B} (o : option A) (k : A -> P B) Q : (forall v, o = Some v -> eats (k v) Q) -> eats (bind (lift o) k) Q.
  Proof.
    intro H. apply (eats_val (lift o) (fun v => o = Some v)); auto; [apply silent_lift|].
    intros s a s' E. destruct o; [now injection E as ->|discriminate].
  Qed.
  Lemma regexes_map l l' : regexes K l = Some l' -> l' = map regex_key l.
  Proof.
    revert l'. induction l as [|x l IH]; cbn [regexes map]; intros l' H; [now injection H as <-|].
    assert (G : forall y, option_map (cons y) (regexes K l) = Some l' -> l' = y :: map regex_key l).
    { intros y E. destruct (regexes K l) as [z|]; [|discriminate]. injection E as <-. f_equal. now apply IH. }
    destruct x; try (apply G; exact H). destruct (C_regex K t); [apply G; exact H|discriminate].
  Qed.
  Definition keyed (m : mtype) (l : list value) : list value := match m with MRegex _ => map regex_key l | _ => l end.
  Lemma eats_validate_then {B} m l (k : list value -> P B) Q : eats (k (keyed m l)) Q -> eats (bind (validate_match K m l) k) Q.
  Proof.
    intro H. apply (eats_val _ (fun v => v = keyed m l)); [apply silent_validate| |intros v ->; exact H].
    intros s a s' E. unfold validate_match in E. destruct m; try (injection E as <- <-; reflexivity).
    destruct (regexes K l) as [l'|] eqn:X; [|unfold bind in E; destruct (next K s); discriminate]. injection E as <- <-. apply regexes_map; auto.
  Qed.

  (** The components of the invariants *)
  Definition Om (a : args) (l : list piece) : Prop :=
    opt match_words (match_is K) MIs l (a_m a) /\ opt ["comparator"] (fun _ us c => comparator_is K us c) CCasemap l (a_c a).
  Definition Oi (a : args) (l : list piece) : Prop :=
    opt ["index"] (fun _ us x => exists n, us = [TNumber n] /\ x = Some (Z.of_N n)) None l (a_index a) /\ flag "last" l (a_last a).
  Definition Oa (a : args) (l : list piece) : Prop := flag "anychild" l (a_any a).
  Lemma Om_matching a l : Om a l -> matching K l (a_m a) (a_c a).
  Proof. auto. Qed.
  Lemma Oi_index a l : Oi a l -> index_is l (the_index a).
  Proof.
    intros [H1 H2]. apply flag_has in H2. unfold the_index. rewrite H2. unfold index_is, opt in *.
    destruct (given ["index"] l) as [[w us]|].
    - destruct H1 as (n & -> & ->). exists n. split; [reflexivity|]. destruct (has "last" l); reflexivity.
    - rewrite H1. destruct (has "last" l); reflexivity.
  Qed.
  (** Strings, then keys *)
  Definition Pv (a : args) (l : list piece) : Prop :=
    match a_vals a with None => positional l = [] | Some v => exists n, positional l = [n] /\ strings_are n v end.
  Definition Fv (a : args) (l : list piece) : Prop :=
    exists n k, positional l = [n; k] /\ strings_are n (vals a) /\ strings_are k (a_nopts a).
  Definition Fn (a : args) (l : list piece) : Prop := exists k, positional l = [k] /\ strings_are k (a_nopts a).
  Definition Fs (a : args) (l : list piece) : Prop := exists k v, positional l = [k] /\ a_name a = Some v /\ string1 k v.
  Lemma keys_of a m k : strings_are k (a_nopts a) -> keys_are K V m k (keyed m (a_nopts a)).
  Proof. intro H. exists (a_nopts a). auto. Qed.

  Lemma eats_strs_checked t b : eats (v <- strings_tok K FU t ;; check K (b v) ;; ret v) (fun l us _ => strings_are (t :: us) l).
  Proof.
    eapply eats_then; [apply eats_strings_tok|]. intro v. apply eats_check. apply eats_ret. auto.
  Qed.
  Lemma eats_str1 t : eats (string_tok K t) (fun v us _ => string1 (t :: us) v).
  Proof. eapply eats_weaken; [apply eats_string_tok|]. cbv beta. intros v us ts [-> H]. now apply strings_one. Qed.
  Lemma eats_str_checked t b : eats (v <- string_tok K t ;; check K (b v) ;; ret v) (fun v us _ => string1 (t :: us) v).
  Proof.
    eapply eats_then; [apply eats_str1|]. intro v. apply eats_check. apply eats_ret. auto.
  Qed.
  Lemma pos_none (l : list piece) us : positional l = [] -> positional (l ++ [(None, us)]) = [us].
  Proof. intro H. rewrite positional_snoc, H. reflexivity. Qed.
  Lemma pos_some (l : list piece) n us : positional l = [n] -> positional (l ++ [(None, us)]) = [n; us].
  Proof. intro H. rewrite positional_snoc, H. reflexivity. Qed.
  Lemma pos_two (l : list piece) n m us : positional l = [n; m] -> positional (l ++ [(None, us)]) = [n; m; us].
  Proof. intro H. rewrite positional_snoc, H. reflexivity. Qed.
  Lemma Pv_more a l us v : a_vals a = None -> Pv a l -> strings_are us v -> Pv (s_vals (Some v) a) (l ++ [(None, us)]).
  Proof. unfold Pv. intros -> H X. cbn [a_vals s_vals]. exists us. split; [now apply pos_none|exact X]. Qed.
  Lemma Pv_done a l us v0 v : a_vals a = Some v0 -> Pv a l -> strings_are us v -> Fv (s_nopts v a) (l ++ [(None, us)]).
  Proof.
    unfold Pv, Fv, vals. intros E H X. cbn [a_vals s_nopts a_nopts]. rewrite E in *. destruct H as (n & H & Y).
    exists n, us. split; [now apply pos_some|auto].
  Qed.
  Lemma Fn_done (a : args) (l : list piece) us v : positional l = [] -> strings_are us v -> Fn (s_nopts v a) (l ++ [(None, us)]).
  Proof. intros H X. exists us. split; [now apply pos_none|exact X]. Qed.
  Lemma Fs_done (a : args) (l : list piece) us v : positional l = [] -> string1 us v -> Fs (s_name (Some v) a) (l ++ [(None, us)]).
  Proof. intros H X. exists us, v. split; [now apply pos_none|]. split; [reflexivity|exact X]. Qed.
  (** A string, then keys *)
  Definition P1 (a : args) (l : list piece) : Prop :=
    match a_name a with None => positional l = [] | Some v => exists n, positional l = [n] /\ string1 n v end.
  Definition F1 (a : args) (l : list piece) : Prop :=
    exists n k v, positional l = [n; k] /\ a_name a = Some v /\ string1 n v /\ strings_are k (a_nopts a).
  Lemma P1_more a l us v : a_name a = None -> P1 a l -> string1 us v -> P1 (s_name (Some v) a) (l ++ [(None, us)]).
  Proof. unfold P1. intros -> H X. cbn [a_name s_name]. exists us. split; [now apply pos_none|exact X]. Qed.
  Lemma P1_done a l us v0 v : a_name a = Some v0 -> P1 a l -> strings_are us v -> F1 (s_nopts v a) (l ++ [(None, us)]).
  Proof.
    unfold P1, F1. intros E H X. rewrite E in H. destruct H as (n & H & Y). exists n, us, v0. split; [now apply pos_some|auto].
  Qed.
  (** Two strings, then keys *)
  Definition P2 (a : args) (l : list piece) : Prop :=
    match a_name a, a_name2 a with
    | None, None => positional l = []
    | Some v, None => exists n, positional l = [n] /\ string1 n v
    | Some v, Some v2 => exists n m, positional l = [n; m] /\ string1 n v /\ string1 m v2
    | None, Some _ => False
    end.
  Definition F2 (a : args) (l : list piece) : Prop :=
    exists n m k v v2, positional l = [n; m; k] /\ a_name a = Some v /\ a_name2 a = Some v2 /\ string1 n v /\ string1 m v2 /\ strings_are k (a_nopts a).
  Lemma P2_more a l us v : a_name a = None -> P2 a l -> string1 us v -> P2 (s_name (Some v) a) (l ++ [(None, us)]).
  Proof.
    unfold P2. intros -> H X. cbn [a_name s_name a_name2]. destruct (a_name2 a); [contradiction|].
    exists us. split; [now apply pos_none|exact X].
  Qed.
  Lemma P2_more2 a l us v0 v : a_name a = Some v0 -> a_name2 a = None -> P2 a l -> string1 us v -> P2 (s_name2 (Some v) a) (l ++ [(None, us)]).
  Proof.
    unfold P2. intros E1 E2 H X. cbn [a_name s_name2 a_name2]. rewrite E1, E2 in *. destruct H as (n & H & Y).
    exists n, us. split; [now apply pos_some|auto].
  Qed.
  Lemma P2_done a l us v0 v1 v : a_name a = Some v0 -> a_name2 a = Some v1 -> P2 a l -> strings_are us v -> F2 (s_nopts v a) (l ++ [(None, us)]).
  Proof.
    unfold P2, F2. intros E1 E2 H X. rewrite E1, E2 in H. destruct H as (n & m & H & Y & Z).
    exists n, m, us, v0, v1. split; [now apply pos_two|auto 6].
  Qed.
  (** A name, a part of a date, then keys *)
  Definition Pd (a : args) (l : list piece) : Prop :=
    match a_name a, a_date a with
    | None, None => positional l = []
    | Some v, None => exists n, positional l = [n] /\ string1 n v
    | Some v, Some d => exists n m, positional l = [n; m] /\ string1 n v /\ datepart_is K m d
    | None, Some _ => False
    end.
  Definition Fd (a : args) (l : list piece) : Prop :=
    exists n m k v d, positional l = [n; m; k] /\ a_name a = Some v /\ a_date a = Some d /\ string1 n v /\ datepart_is K m d /\ strings_are k (a_nopts a).
  Lemma Pd_more a l us v : a_name a = None -> Pd a l -> string1 us v -> Pd (s_name (Some v) a) (l ++ [(None, us)]).
  Proof.
    unfold Pd. intros -> H X. cbn [a_name s_name a_date]. destruct (a_date a); [contradiction|].
    exists us. split; [now apply pos_none|exact X].
  Qed.
  Lemma Pd_more2 a l us v0 d : a_name a = Some v0 -> a_date a = None -> Pd a l -> datepart_is K us d -> Pd (s_date (Some d) a) (l ++ [(None, us)]).
  Proof.
    unfold Pd. intros E1 E2 H X. cbn [a_name s_date a_date]. rewrite E1, E2 in *. destruct H as (n & H & Y).
    exists n, us. split; [now apply pos_some|auto].
  Qed.
  Lemma Pd_done a l us v0 d v : a_name a = Some v0 -> a_date a = Some d -> Pd a l -> strings_are us v -> Fd (s_nopts v a) (l ++ [(None, us)]).
  Proof.
    unfold Pd, Fd. intros E1 E2 H X. rewrite E1, E2 in H. destruct H as (n & m & H & Y & Z).
    exists n, m, us, v0, d. split; [now apply pos_two|auto 6].
  Qed.
  (** A part of a date, then keys *)
  Definition P1d (a : args) (l : list piece) : Prop :=
    match a_date a with None => positional l = [] | Some d => exists n, positional l = [n] /\ datepart_is K n d end.
  Definition F1d (a : args) (l : list piece) : Prop :=
    exists n k d, positional l = [n; k] /\ a_date a = Some d /\ datepart_is K n d /\ strings_are k (a_nopts a).
  Lemma P1d_more a l us d : a_date a = None -> P1d a l -> datepart_is K us d -> P1d (s_date (Some d) a) (l ++ [(None, us)]).
  Proof. unfold P1d. intros -> H X. cbn [a_date s_date]. exists us. split; [now apply pos_none|exact X]. Qed.
  Lemma P1d_done a l us d v : a_date a = Some d -> P1d a l -> strings_are us v -> F1d (s_nopts v a) (l ++ [(None, us)]).
  Proof.
    unfold P1d, F1d. intros E H X. rewrite E in H. destruct H as (n & H & Y). exists n, us, d. split; [now apply pos_some|auto].
  Qed.
  (** Parts of the envelope, then keys *)
  Definition Pe (a : args) (l : list piece) : Prop :=
    match a_env a with None => positional l = [] | Some e => exists n, positional l = [n] /\ envelopes_are K n e end.
  Definition Fe (a : args) (l : list piece) : Prop :=
    exists n k e, positional l = [n; k] /\ a_env a = Some e /\ envelopes_are K n e /\ strings_are k (a_nopts a).
  Lemma Pe_more a l us e : a_env a = None -> Pe a l -> envelopes_are K us e -> Pe (s_env (Some e) a) (l ++ [(None, us)]).
  Proof. unfold Pe. intros -> H X. cbn [a_env s_env]. exists us. split; [now apply pos_none|exact X]. Qed.
  Lemma Pe_done a l us e v : a_env a = Some e -> Pe a l -> strings_are us v -> Fe (s_nopts v a) (l ++ [(None, us)]).
  Proof.
    unfold Pe, Fe. intros E H X. rewrite E in H. destruct H as (n & H & Y). exists n, us, e. split; [now apply pos_some|auto].
  Qed.
  Lemma date_shape us d : datepart_is K us d -> a_strings us.
  Proof. intros (c & -> & _). left. exists (TStr c). split; [reflexivity|exact Logic.I]. Qed.
  Lemma eats_date1 t : eats (date_tok K t) (fun d us _ => datepart_is K (t :: us) d).
  Proof. eapply eats_weaken; [apply eats_date_tok|]. cbv beta. intros d us ts [-> H]. exact H. Qed.
End Common.

Ltac words := repeat match goal with
  | H : In _ (map lit _) |- _ => cbn [map In app ParseBase.match_words] in H
  | H : _ = _ \/ _ |- _ => destruct H as [<-|H]
  | H : False |- _ => contradiction
  end.
Ltac pos := unfold Pv, P1, P2, Pd, P1d, Pe; first [reflexivity | rewrite positional_snoc_tag; assumption].
Ltac open_ := unfold Om, Oi, Oa, flag, str_opt, strs_opt, num_opt in *;
  repeat match goal with H : _ /\ _ |- _ => destruct H end.
Ltac conj := repeat (lazymatch goal with |- _ /\ _ => split end).
Ltac comp := lazymatch goal with |- opt _ _ _ _ _ =>
  first [apply opt_nil | assumption | apply opt_pos; assumption | apply opt_miss; [reflexivity|assumption] | apply opt_hit; [reflexivity|solve [eauto | eexists; split; [reflexivity|first [eassumption|reflexivity]]]]] end.
Ltac tag := intros; words; open_; conj; first [comp | pos].
Ltac inpart := let I := fresh in intros ? I; cbn [In] in I; repeat (destruct I as [<-|I]; [cbn; tauto|]); contradiction.
Ltac hdl := first
  [ apply handles_match; [let I := fresh in intros ? I; rewrite ?in_app_iff; tauto|tag]
  | apply handles_comparator; [reflexivity|tag]
  | apply handles_flag; [reflexivity|tag]
  | apply handles_string; [reflexivity|tag]
  | apply handles_strings; [reflexivity|tag]
  | apply handles_zone; [reflexivity|tag]
  | apply handles_number; [reflexivity|tag]
  | apply handles_part; [inpart|inpart|tag] ].
Ltac hdls := repeat (apply Forall_cons; [try solve [hdl]|]); try apply Forall_nil.
(** A positional argument, read by the parser of [lem] *)
Ltac shp := first [eapply strings_shape; eassumption | eapply date_shape; eassumption | eapply envelopes_shape; eassumption].
Ltac arg lem := unfold more, done; eapply eats_then; [apply lem|]; let v := fresh "v" in intro v; apply eats_ret;
  intros ?; split; [reflexivity|]; cbv beta; let us := fresh "us" in let HQ := fresh "HQ" in intros us HQ; split; [shp|];
  intros ? ?; open_; conj; try comp.
Ltac fin := intro; repeat first [apply eats_check | apply eats_validate_then | apply eats_lift_then; intros ? ?]; apply eats_ret;
  intros ?; split; [reflexivity|]; cbv beta; intros ? (lx & Hs & HF).
Section Tests.
  Variable K : cenv.
  Variable V : vst.
  Variable FU : nat.
  Notation L := (C_L K).
  Notation eats := (eats K V).
  Notation silent := (silent K V).
  Notation strings_are := (strings_are K V).
  Notation string1 := (string1 K V).
  Notation plain_test := (plain_test K V).
  Notation Om := (Om K).

  Lemma eats_address : eats (test_address K FU) (fun t us _ => plain_test "address" us t).
  Proof.
    unfold test_address.
    eapply eats_then; [apply (eats_args K V FU (bare (map fst parts) ++ match_tags true ++ index_tags ++ mime_tags)
      (fun a l => (Om a l /\ Oi a l /\ Oa a l /\ opt (map fst parts) part_is PAll l (a_part a)) /\ Pv K V a l) _ _
      (fun a l => (Om a l /\ Oi a l /\ Oa a l /\ opt (map fst parts) part_is PAll l (a_part a)) /\ Fv K V a l))|].
    - tag.
    - hdls.
    - intros t a. unfold names_keys. destruct (a_vals a) eqn:E.
      + arg eats_strings_tok. eapply Pv_done; eauto.
      + arg eats_strs_checked. eapply Pv_more; eauto.
    - fin. destruct HF as ((A & B & C & D) & n & k & P & Q & R). eapply is_address; eauto; [now apply Oi_index|now apply keys_of].
  Qed.
  Lemma eats_header : eats (test_header K FU) (fun t us _ => plain_test "header" us t).
  Proof.
    unfold test_header.
    eapply eats_then; [apply (eats_args K V FU (match_tags true ++ index_tags ++ mime_tags ++ bare ["type"; "subtype"; "contenttype"] ++ with_strings ["param"])
      (fun a l => (Om a l /\ Oi a l /\ Oa a l /\ opt ["type"; "subtype"; "contenttype"; "param"] (mimeopt_is K V) MvNone l (a_opts a)) /\ Pv K V a l) _ _
      (fun a l => (Om a l /\ Oi a l /\ Oa a l /\ opt ["type"; "subtype"; "contenttype"; "param"] (mimeopt_is K V) MvNone l (a_opts a)) /\ Fv K V a l))|].
    - tag.
    - hdls. intros w a W. apply oneof_named in W. unfold named in W. cbn [fst snd h_mimeopts]. words;
        (apply eats_silent; [apply silent_va|]; intros _).
      1-3: (apply eats_ret; intros ?; split; [eapply legal_shape; [reflexivity|reflexivity]|]; intros l H; open_; conj;
        first [pos|comp|apply opt_hit; [reflexivity|]; unfold mimeopt_is; auto]).
      eapply eats_then; [eapply eats_then; [apply eats_strings|]; intro v; apply eats_ret; intros ts; split; [reflexivity|]; intros us H;
         instantiate (1 := fun o us _ => exists v, strings_are us v /\ o = MvParam v); exists v; auto|].
      intro o. apply eats_ret. intros ts. split; [reflexivity|]. intros us (v & H & ->).
      split; [eapply legal_shape; [reflexivity|]; apply fits_one; eapply strings_shape; eauto|]. intros l HR. open_; conj;
        first [pos|comp|apply opt_hit; [reflexivity|]; unfold mimeopt_is; eauto 10].
    - intros t a. unfold names_keys. destruct (a_vals a) eqn:E.
      + arg eats_strings_tok. eapply Pv_done; eauto.
      + arg eats_strs_checked. eapply Pv_more; eauto.
    - fin. destruct HF as ((A & B & C & D) & n & k & P & Q & R). eapply is_header; eauto; [now apply Oi_index|now apply keys_of].
  Qed.
  Lemma eats_body : eats (test_body K FU) (fun t us _ => plain_test "body" us t).
  Proof.
    unfold test_body.
    eapply eats_then; [apply (eats_args K V FU (match_tags false ++ bare ["raw"; "text"; "subject"] ++ with_strings ["content"])
      (fun a l => (Om a l /\ opt ["raw"; "text"; "content"] (body_is K V) BtText l (a_body a) /\ flag "subject" l (a_mime a)) /\ positional l = []) _ _
      (fun a l => (Om a l /\ opt ["raw"; "text"; "content"] (body_is K V) BtText l (a_body a) /\ flag "subject" l (a_mime a)) /\ Fn K V a l))|].
    - tag.
    - hdls.
      + apply (handles_flag K V); [reflexivity|]. intros; open_; conj; first [pos|comp|apply opt_hit; [reflexivity|]; unfold body_is; auto].
      + apply (handles_flag K V); [reflexivity|]. intros; open_; conj; first [pos|comp|apply opt_hit; [reflexivity|]; unfold body_is; auto].
      + apply (handles_strings K V FU _ _ 1 None "content" (fun l a => s_body (BtContent l) a)); [reflexivity|].
        intros; open_; conj; first [pos|comp|apply opt_hit; [reflexivity|]; unfold body_is; eauto 10].
    - intros t a. arg eats_strings_tok. now apply Fn_done.
    - fin. destruct HF as ((A & B & C) & k & P & R). eapply is_body; eauto. now apply keys_of.
  Qed.
  Definition zone_arg (w : text) (us : list tok) (z : zone) : Prop :=
    (w = lit "originalzone" /\ z = ZOriginal) \/ (w = lit "zone" /\ exists off, zone_is us off /\ z = ZTime off).
  Lemma eats_date : eats (test_date K FU) (fun t us _ => plain_test "date" us t).
  Proof.
    unfold test_date.
    eapply eats_then; [apply (eats_args K V FU (match_tags true ++ index_tags ++ mime_tags ++ bare ["originalzone"] ++ with_strings ["zone"])
      (fun a l => (Om a l /\ Oi a l /\ Oa a l /\ opt ["originalzone"; "zone"] zone_arg ZLocal l (a_zone a)) /\ Pd K V a l) _ _
      (fun a l => (Om a l /\ Oi a l /\ Oa a l /\ opt ["originalzone"; "zone"] zone_arg ZLocal l (a_zone a)) /\ Fd K V a l))|].
    - tag.
    - hdls.
      + apply handles_flag; [reflexivity|]. intros; open_; conj; first [pos|comp|apply opt_hit; [reflexivity|]; unfold zone_arg; auto].
      + apply (handles_zone K V _ _ (fun z a => s_zone (ZTime z) a)); [reflexivity|].
        intros; open_; conj; first [pos|comp|apply opt_hit; [reflexivity|]; unfold zone_arg; eauto 10].
    - intros t a. destruct (a_name a) eqn:E1.
      + destruct (a_date a) eqn:E2.
        * arg eats_strings_tok. eapply Pd_done; eauto.
        * arg eats_date1. eapply Pd_more2; eauto.
      + arg eats_str_checked. eapply Pd_more; eauto.
    - fin. destruct HF as ((A & B & C & D) & n & k & ks & x & d & P & Q & R & S & T & U).
      assert (x = v) as -> by congruence. assert (d = v0) as -> by congruence.
      eapply is_date; eauto; [now apply Oi_index|now apply keys_of].
  Qed.
  Lemma eats_currentdate : eats (test_currentdate K FU) (fun t us _ => plain_test "currentdate" us t).
  Proof.
    unfold test_currentdate.
    eapply eats_then; [apply (eats_args K V FU (match_tags true ++ with_strings ["zone"])
      (fun a l => (Om a l /\ opt ["zone"] (fun _ us z => exists off, zone_is us off /\ z = Some off) None l (a_tz a)) /\ P1d K a l) _ _
      (fun a l => (Om a l /\ opt ["zone"] (fun _ us z => exists off, zone_is us off /\ z = Some off) None l (a_tz a)) /\ F1d K V a l))|].
    - tag.
    - hdls.
    - intros t a. destruct (a_date a) eqn:E.
      + arg eats_strings_tok. eapply P1d_done; eauto.
      + arg eats_date1. eapply P1d_more; eauto.
    - fin. destruct HF as ((A & B) & n & k & d & P & Q & R & S). assert (d = v) as -> by congruence.
      eapply is_currentdate; eauto. now apply keys_of.
  Qed.
  Lemma silent_env_caps l : silent (envelope_caps K l).
  Proof. apply silent_envelope_caps. Qed.
  Lemma eats_envelope : eats (test_envelope K FU) (fun t us _ => plain_test "envelope" us t).
  Proof.
    unfold test_envelope.
    eapply eats_then; [apply (eats_args K V FU (bare ["localpart"; "domain"; "all"; "user"; "detail"] ++ match_tags true ++ with_strings ["zone"])
      (fun a l => (Om a l /\ opt (map fst parts) part_is PAll l (a_part a) /\
                   opt ["zone"] (fun _ us z => exists off, zone_is us off /\ z = Some off) None l (a_tz a)) /\ Pe K a l) _ _
      (fun a l => (Om a l /\ opt (map fst parts) part_is PAll l (a_part a) /\
                   opt ["zone"] (fun _ us z => exists off, zone_is us off /\ z = Some off) None l (a_tz a)) /\ Fe K V a l))|].
    - tag.
    - hdls.
    - intros t a. destruct (a_env a) eqn:E.
      + arg eats_strings_tok. eapply Pe_done; eauto.
      + assert (X : eats (l <- envelope_list K FU t ;; envelope_caps K l ;; ret l) (fun l us _ => envelopes_are K (t :: us) l)).
        { eapply eats_then; [apply eats_envelope_list|]. intro v. apply eats_silent; [apply silent_env_caps|]. intros _. apply eats_ret. auto. }
        arg X. eapply Pe_more; eauto.
    - fin. destruct HF as ((A & B & C) & n & k & d & P & Q & R & S). assert (d = v) as -> by congruence.
      eapply is_envelope; eauto. now apply keys_of.
  Qed.
  Lemma eats_exists : eats (test_exists K FU) (fun t us _ => plain_test "exists" us t).
  Proof.
    unfold test_exists.
    eapply eats_then; [apply (eats_args K V FU mime_tags (fun a l => Oa a l /\ positional l = []) _ _
      (fun a l => Oa a l /\ exists n, positional l = [n] /\ strings_are n (vals a)))|].
    - tag.
    - hdls.
    - intros t a. arg eats_strs_checked. exists (t :: us). split; [now apply pos_none|exact HQ].
    - fin. destruct HF as (A & n & P & R). eapply is_exists; eauto.
  Qed.
  Lemma eats_metadata : eats (test_metadata K FU) (fun t us _ => plain_test "metadata" us t).
  Proof.
    unfold test_metadata.
    eapply eats_then; [apply (eats_args K V FU (match_tags false) (fun a l => Om a l /\ P2 K V a l) _ _ (fun a l => Om a l /\ F2 K V a l))|].
    - tag.
    - hdls.
    - intros t a. unfold two_keys. destruct (a_name a) eqn:E1; [destruct (a_name2 a) eqn:E2|].
      + arg eats_strings_tok. eapply P2_done; eauto.
      + arg eats_str1. eapply P2_more2; eauto.
      + arg eats_str1. eapply P2_more; eauto.
    - fin. destruct HF as (A & n & k & ks & x & d & P & Q & R & S & T & U).
      assert (x = v) as -> by congruence. assert (d = v0) as -> by congruence. eapply is_metadata; eauto. now apply keys_of.
  Qed.
  Lemma eats_notify_capability : eats (test_notify_method_capability K FU) (fun t us _ => plain_test "notify_method_capability" us t).
  Proof.
    unfold test_notify_method_capability.
    eapply eats_then; [apply (eats_args K V FU (match_tags false) (fun a l => Om a l /\ P2 K V a l) _ _ (fun a l => Om a l /\ F2 K V a l))|].
    - tag.
    - hdls.
    - intros t a. unfold two_keys. destruct (a_name a) eqn:E1; [destruct (a_name2 a) eqn:E2|].
      + arg eats_strings_tok. eapply P2_done; eauto.
      + arg eats_str1. eapply P2_more2; eauto.
      + arg eats_str1. eapply P2_more; eauto.
    - fin. destruct HF as (A & n & k & ks & x & d & P & Q & R & S & T & U).
      assert (x = v) as -> by congruence. assert (d = v0) as -> by congruence. eapply is_notify_capability; eauto. now apply keys_of.
  Qed.
  Lemma eats_servermetadata : eats (test_servermetadata K FU) (fun t us _ => plain_test "servermetadata" us t).
  Proof.
    unfold test_servermetadata.
    eapply eats_then; [apply (eats_args K V FU (match_tags false) (fun a l => Om a l /\ P1 K V a l) _ _ (fun a l => Om a l /\ F1 K V a l))|].
    - tag.
    - hdls.
    - intros t a. destruct (a_name a) eqn:E.
      + arg eats_strings_tok. eapply P1_done; eauto.
      + arg eats_str1. eapply P1_more; eauto.
    - fin. destruct HF as (A & n & k & x & P & Q & R & S). assert (x = v) as -> by congruence.
      eapply is_servermetadata; eauto. now apply keys_of.
  Qed.
  Lemma eats_spamtest : eats (test_spamtest K FU) (fun t us _ => plain_test "spamtest" us t).
  Proof.
    unfold test_spamtest.
    eapply eats_then; [apply (eats_args K V FU (match_tags false ++ bare ["percent"])
      (fun a l => (Om a l /\ flag "percent" l (a_percent a)) /\ positional l = []) _ _
      (fun a l => (Om a l /\ flag "percent" l (a_percent a)) /\ Fs K V a l))|].
    - tag.
    - hdls.
    - intros t a. arg eats_str1. now apply Fs_done.
    - fin. destruct HF as ((A & B) & k & x & P & Q & R). assert (x = v) as -> by congruence. eapply is_spamtest; eauto.
  Qed.
  Lemma eats_virustest : eats (test_virustest K FU) (fun t us _ => plain_test "virustest" us t).
  Proof.
    unfold test_virustest.
    eapply eats_then; [apply (eats_args K V FU (match_tags false) (fun a l => Om a l /\ positional l = []) _ _ (fun a l => Om a l /\ Fs K V a l))|].
    - tag.
    - hdls.
    - intros t a. arg eats_str1. now apply Fs_done.
    - fin. destruct HF as (A & k & x & P & Q & R). assert (x = v) as -> by congruence. eapply is_virustest; eauto.
  Qed.
  Lemma eats_string_test : eats (test_string K FU) (fun t us _ => plain_test "string" us t).
  Proof.
    unfold test_string.
    eapply eats_then; [apply (eats_args K V FU (match_tags true) (fun a l => Om a l /\ Pv K V a l) _ _ (fun a l => Om a l /\ Fv K V a l))|].
    - tag.
    - hdls.
    - intros t a. unfold names_keys. destruct (a_vals a) eqn:E.
      + arg eats_strings_tok. eapply Pv_done; eauto.
      + arg eats_strs_checked. eapply Pv_more; eauto.
    - fin. destruct HF as (A & n & k & P & Q & R). eapply is_stringtest; eauto. now apply keys_of.
  Qed.
End Tests.
