(** Specification: the texts that the modifiers of 'set' and 'extracttext' make, and what is stored. *)
From Verif Require Import Base Lib Var Value SetVar SetSpec DateSpec Message Event Sieve Run TestSpec ActionSpec.
Import ListNotations.
Local Open Scope list_scope.

(** *** Texts rewritten character by character, as far as there is room *)
(** [out] is what [writes] makes of the characters of [s], one after the other. *)
Inductive written (writes : ch -> text -> Prop) : text -> text -> Prop :=
| wr_end : written writes [] []
| wr_char c w s out : writes c w -> written writes s out -> written writes (c :: s) (w ++ out).
(** The same for the longest beginning of [s] that takes at most [max] bytes when written. *)
Definition written_within (writes : ch -> text -> Prop) (max : nat) (s out : text) : Prop :=
  exists p rest, s = p ++ rest /\ written writes p out /\ blen out <= max /\
    match rest with [] => True | c :: _ => exists w, writes c w /\ max < blen out + blen w end.

(** A character that is special is written after a backslash. *)
Definition escaped (special : text) (c : ch) (w : text) : Prop :=
  (In c special /\ w = [92%N; c]) \/ (~ In c special /\ w = [c]).
(** Star, question mark and backslash. *)
Definition wild : text := [42; 63; 92]%N.
(** The characters with a meaning in regular expressions. *)
Definition regexp : text := lit "$()*+.:=?[\]^{|}".
(** A byte as a percent sign and two hexadecimal digits (small letters). *)
Definition byte_escape (b : N) (w : text) : Prop :=
  exists x y vx vy, w = [37%N; x; y] /\ hexval x = Some vx /\ hexval y = Some vy /\ b = (16 * vx + vy)%N /\
    ~ (65 <= x <= 70)%N /\ ~ (65 <= y <= 70)%N.
(** An unreserved character is written as it is, any other as the escapes of its bytes. *)
Definition url_char (c : ch) (w : text) : Prop :=
  (uri_unreserved c /\ w = [c]) \/
  (~ uri_unreserved c /\ exists ws, Forall2 byte_escape (utf8_char c) ws /\ w = concat ws).

(** The first character replaced by [f], then as many of the others as there is room for. *)
Inductive first_changed (f : ch -> text) (max : nat) : text -> text -> Prop :=
| fi_empty : first_changed f max [] []
| fi_no_room c s : max < len_utf8 c -> first_changed f max (c :: s) []
| fi_some c p rest : len_utf8 c <= max -> (p <> [] -> blen (f c ++ p) <= max) ->
    match rest with [] => True | d :: _ => max < blen (f c ++ p) + len_utf8 d end ->
    first_changed f max (c :: p ++ rest) (f c ++ p).

(** Every occurrence of [find], from the left and without overlaps, replaced by [repl]. *)
Inductive replaced (find repl : text) : text -> text -> Prop :=
| re_end : replaced find repl [] []
| re_here s out : replaced find repl s out -> replaced find repl (find ++ s) (repl ++ out)
| re_skip c s out : ~ is_prefix find (c :: s) -> replaced find repl s out -> replaced find repl (c :: s) (c :: out).
(** The empty text occurs before every character and at the end. *)
Inductive interspersed (repl : text) : text -> text -> Prop :=
| is_end : interspersed repl [] repl
| is_char c s out : interspersed repl s out -> interspersed repl (c :: s) (repl ++ c :: out).

(** What one modifier makes of a text.  The texts of the engine hold Unicode scalar values only; this is
    asked for where it matters. *)
Inductive modified (E : renv) (s : rst) : modifier -> text -> text -> Prop :=
| mo_lower t : modified E s ModLower t (str_lower (E_L E) t)
| mo_upper t : modified E s ModUpper t (str_upper (E_L E) t)
| mo_lowerfirst t out : first_changed (chr_lower (E_L E)) (E_max_var E) t out -> modified E s ModLowerFirst t out
| mo_upperfirst t out : first_changed (chr_upper (E_L E)) (E_max_var E) t out -> modified E s ModUpperFirst t out
| mo_wild t out : written_within (escaped wild) (E_max_var E) t out -> modified E s ModQuoteWildcard t out
| mo_regex t out : written_within (escaped regexp) (E_max_var E) t out -> modified E s ModQuoteRegex t out
| mo_url t out : (Forall valid_char t -> written_within url_char (E_max_var E) t out) -> modified E s ModEncodeUrl t out
| mo_length t out w : decimal w out (N.of_nat (length t)) -> (w = 1 \/ hd 48%N out <> 48%N) -> modified E s ModLength t out
| mo_replace f r t out : tx E s f <> [] -> replaced (tx E s f) (tx E s r) t out -> modified E s (ModReplace f r) t out
| mo_intersperse f r t out : tx E s f = [] -> interspersed (tx E s r) t out -> modified E s (ModReplace f r) t out.
(** One after the other. *)
Inductive modified_by (E : renv) (s : rst) : list modifier -> text -> text -> Prop :=
| mb_none t : modified_by E s [] t t
| mb_next m ms t u out : modified E s m t u -> modified_by E s ms u out -> modified_by E s (m :: ms) t out.

(** *** Storing *)
(** [n] has the value [v]; all other variables are as before, and so is everything else but the next
    position, the number of executed instructions and, for an envelope item, the events waiting. *)
Definition stored (E : renv) (s : rst) (n : vartype) (v : var) (s' : rst) : Prop :=
  variable (vw E s') n = Some v /\ (forall n', n' <> n -> variable (vw E s') n' = variable (vw E s) n') /\
  exists c, s' = w_vars c (moved_on s).
(** The event that tells the host of a changed envelope item. *)
Definition envelope_event (n : vartype) (t : text) : list event :=
  match n with TEnvelope e => [ESetEnvelope e t] | _ => [] end.

(** The text extracttext takes from the current part of a foreverypart loop. *)
Inductive part_text (E : renv) (s : rst) (first : option nat) : text -> Prop :=
| pt_text p t : r_iters s <> [] -> nth_error (parts s) (r_part s) = Some p -> p_body p = BText t ->
    part_text E s first (match first with Some n => firstn n t | None => t end)
| pt_html p t : r_iters s <> [] -> nth_error (parts s) (r_part s) = Some p -> p_body p = BHtml t ->
    part_text E s first (match first with Some n => firstn n (E_h2t E t) | None => E_h2t E t end)
| pt_other p : r_iters s <> [] -> nth_error (parts s) (r_part s) = Some p ->
    (forall t, p_body p <> BText t) -> (forall t, p_body p <> BHtml t) -> part_text E s first []
| pt_missing : r_iters s <> [] -> nth_error (parts s) (r_part s) = None -> part_text E s first []
| pt_outside : r_iters s = [] -> part_text E s first [].

(** *** The flags given to an action *)
(** The words of a text: separated by ASCII white space. *)
Inductive words_are : text -> list text -> Prop :=
| wo_end blanks : Forall (fun c => is_ws_ascii c = true) blanks -> words_are blanks []
| wo_word blanks w rest ws : Forall (fun c => is_ws_ascii c = true) blanks -> w <> [] -> Forall (fun c => is_ws_ascii c = false) w ->
    match rest with [] => True | c :: _ => is_ws_ascii c = true end -> words_are rest ws -> words_are (blanks ++ w ++ rest) (w :: ws).
(** A text without the white space around it. *)
Definition trimmed (L : rustlib) (t u : text) : Prop :=
  exists a b, t = a ++ u ++ b /\ Forall (fun c => chr_is_ws L c = true) a /\ Forall (fun c => chr_is_ws L c = true) b /\
    (forall c v, u = c :: v -> chr_is_ws L c = false) /\ (forall c v, u = v ++ [c] -> chr_is_ws L c = false).
(** One string gives its words; in a list every string that is not empty is one flag. *)
Inductive flags_given (E : renv) (s : rst) : list value -> list text -> Prop :=
| fg_words x ws : words_are (tx E s x) ws -> flags_given E s [x] ws
| fg_list l ws : length l <> 1 -> flags_listed E s l ws -> flags_given E s l ws
with flags_listed (E : renv) (s : rst) : list value -> list text -> Prop :=
| fl_none : flags_listed E s [] []
| fl_skip x l ws : tx E s x = [] -> flags_listed E s l ws -> flags_listed E s (x :: l) ws
| fl_flag x l w ws : tx E s x <> [] -> trimmed (E_L E) (tx E s x) w -> flags_listed E s l ws -> flags_listed E s (x :: l) (w :: ws).
