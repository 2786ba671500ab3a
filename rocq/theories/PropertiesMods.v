(** Properties C94, and C10 continued: what set, extracttext and the flag actions store in a running script. *)
From Coq Require Import Lia.
From Verif Require Import Base Lib Var Value SetVar SetSpec Flags FlagsSpec Message EditHeader Event Sieve Run TestSpec ActionSpec ModSpec ModProofs ModProofs2 ModProofs3
  PropertiesMessage PropertiesRun PropertiesTest.
Import ListNotations.
Local Open Scope string_scope.
Local Open Scope list_scope.

(** set with modifiers: the variable holds what the modifiers make of the text, one after the other, cut
    to the largest size; no other variable changes, and a changed envelope item is reported. *)
Theorem C94_set :
  forall E s mods n x,
    at_instr E s (IxSet mods n x) -> mods <> [] -> assignable (r_vars s) n -> r_queue s = [] ->
    exists out p s', modified_by E s mods (tx E s x) out /\ longest_prefix (E_max_var E) out p /\
      stored E s n (VStr p) s' /\ hands_out E s (envelope_event n p) s'.
Proof. exact set_step. Qed.
Print Assumptions C94_set.

(** set without modifiers keeps the value itself if it is small enough. *)
Theorem C94_set_plain :
  forall E s n x,
    at_instr E s (IxSet [] n x) -> (forall e, n <> TEnvelope e) -> assignable (r_vars s) n -> r_queue s = [] ->
    exists v s', ((v_len (Run.ev E s x) <= E_max_var E /\ v = Run.ev E s x) \/
                  (E_max_var E < v_len (Run.ev E s x) /\ exists p, v = VStr p /\ longest_prefix (E_max_var E) (tx E s x) p)) /\
      stored E s n v s' /\ step E s = SCont s'.
Proof. exact plain_step. Qed.
Print Assumptions C94_set_plain.

(** extracttext: the text of the current part, its first characters only if so asked, changed by the modifiers. *)
Theorem C94_extract :
  forall E s mods first n,
    at_instr E s (IxExtract mods first n) -> assignable (r_vars s) n -> r_queue s = [] ->
    exists t out s', part_text E s first t /\ (t = [] -> out = []) /\ (t <> [] -> modified_by E s mods t out) /\
      stored E s n (VStr out) s' /\ hands_out E s (envelope_event n out) s'.
Proof. exact extract_step. Qed.
Print Assumptions C94_extract.

(** Modifiers leave no choice. *)
Theorem C94_one_text :
  forall E s m t out out', Forall valid_char t -> modified E s m t out -> modified E s m t out' -> out = out'.
Proof. exact modified_one. Qed.
Print Assumptions C94_one_text.

(** C10 in a run: the variable holds the old flags, the given ones, both or the difference, without regard to case.
    The flags given are the words of one string or the strings of a list. *)
Theorem C10_in_run :
  forall E s a name strings old,
    let n := match name with Some n => n | None => default_flags end in
    (forall f, str_lower (E_L E) f = str_lower (E_L E) [] -> f = []) ->
    at_instr E s (IxEditFlags a name strings) -> (forall e, n <> TEnvelope e) -> assignable (r_vars s) n ->
    holds (vw E s) n old -> no_dup_ci (E_L E) old ->
    exists given, flags_given E s strings given /\
      (Forall proper_flag given -> flags_size old + flags_size given <= E_max_var E ->
       exists v new s', stored E s n v s' /\ step E s = SCont s' /\ holds (vw E s') n new /\ new_flags_ok (E_L E) a old given new).
Proof.
  intros E s a name strings old n EL AT NE A H ND. exists (flag_tokens (E_L E) (vw E s) strings). split; [apply given_spec|].
  intros PF SZ. eapply flags_step; eauto.
Qed.
Print Assumptions C10_in_run.

(** *** Examples *)
Definition to_g (mods : list modifier) (t : string) : instruction := IxSet mods (TGlobal (lit "g")) (str t).
Definition holds_after (l : list instruction) (s : rst) : option var :=
  match step E1 s with SCont s' => variable (vw E1 s') (TGlobal (lit "g")) | _ => None end.
Example C94_at : at_instr E1 (started [to_g [ModUpperFirst] "ann"]) (to_g [ModUpperFirst] "ann") /\
  assignable (r_vars (started [to_g [ModUpperFirst] "ann"])) (TGlobal (lit "g")) /\ r_queue (started [to_g [ModUpperFirst] "ann"]) = [].
Proof. split; [split; [discriminate|split; [reflexivity|change (0 < 100); lia]]|split; [exact Logic.I|reflexivity]]. Qed.
Definition set_gives (mods : list modifier) (t : string) : option var := holds_after [] (started [to_g mods t]).
Example C94_upperfirst : set_gives [ModLower; ModUpperFirst] "jOHN" = Some (VStr (lit "John")).
Proof. vm_compute. reflexivity. Qed.
Example C94_quoted : set_gives [ModQuoteRegex] "a.b" = Some (VStr (lit "a\.b")) /\ set_gives [ModEncodeUrl] "a b/c" = Some (VStr (lit "a%20b%2fc")) /\
  set_gives [ModReplace (str "aa") (str "x"); ModLength] "aaaaa" = Some (VStr (lit "3")) /\ set_gives [ModReplace (str "") (str "-")] "ab" = Some (VStr (lit "-a-b-")).
Proof. vm_compute. repeat split; reflexivity. Qed.

(** extracttext is not held to the largest size of a variable. *)
Definition long_part : list part := [Part [hd "Subject" "hi"] None (BText (repeat 97%N 1001))].
Definition extract_g : instruction := IxExtract [] None (TGlobal (lit "g")).
Definition in_loop : rst := w_iters [(0, [])] (feed (main [extract_g]) (initial long_part 100 vars0)).
Theorem C94_extract_limit_refuted :
  exists E s n t s', at_instr E s (IxExtract [] None n) /\ assignable (r_vars s) n /\ r_queue s = [] /\
    step E s = SCont s' /\ variable (vw E s') n = Some (VStr t) /\ E_max_var E < blen t.
Proof.
  exists E1, in_loop, (TGlobal (lit "g")), (repeat 97%N 1001).
  destruct (C94_extract E1 in_loop [] None (TGlobal (lit "g"))) as (t & out & s' & PT & _ & O2 & (V & _) & ST).
  - split; [discriminate|split; [reflexivity|change (0 < 100); lia]].
  - exact Logic.I.
  - reflexivity.
  - exists s'. split; [split; [discriminate|split; [reflexivity|change (0 < 100); lia]]|]. split; [exact Logic.I|]. split; [reflexivity|]. split; [exact ST|].
    assert (T : t = repeat 97%N 1001).
    { assert (NP : nth_error (parts in_loop) (r_part in_loop) = Some (Part [hd "Subject" "hi"] None (BText (repeat 97%N 1001)))) by reflexivity.
      inversion PT as [p u I N B|p u I N B|p I N B1 B2|I N|I]; subst.
      - rewrite NP in N. injection N as <-. injection B as <-. reflexivity.
      - rewrite NP in N. injection N as <-. discriminate.
      - rewrite NP in N. injection N as <-. elim (B1 (repeat 97%N 1001)). reflexivity.
      - rewrite NP in N. discriminate.
      - discriminate. }
    rewrite T in O2. specialize (O2 ltac:(discriminate)). inversion O2; subst. split; [exact V|].
    assert (B : Nat.ltb (E_max_var E1) (blen (repeat 97%N 1001)) = true) by (vm_compute; reflexivity). apply Nat.ltb_lt, B.
Qed.
Print Assumptions C94_extract_limit_refuted.
