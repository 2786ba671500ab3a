(** Properties of the 'set' action: C03, C11, C12, C13. *)
From Verif Require Import Base Lib Var Value SetVar SetSpec Glob GlobSpec Comparator ComparatorSpec SetProofs.
From Coq Require Import Permutation.

(** C03: after 'set :quotewildcard "v" text', a ':matches' key "${v}" accepts
    the original text and, up to the comparator's case folding, nothing else. *)
Theorem C03_quotewildcard_matches_only_itself :
  forall L rx max c n t,
    (forall x, chr_lower L x <> []) ->
    assignable c n ->
    blen t + special_count t <= max ->
    exists pattern,
      variable (fst (exec_set L max c [ModQuoteWildcard] n (XText t))) n = Some pattern /\
      forall cmp positions value, exists b caps,
        compare1 L rx cmp (MMatches positions) (KStr value) (KVar pattern) [] = CRes b caps /\
        match cmp with
        | CCasemap =>
            b = true <-> (if N.eqb positions 0 then str_lower L value
                          else flat_map (pfold (chr_is_upper L) (chr_lower L) true) value)
                         = flat_map (pfold (chr_is_upper L) (chr_lower L) true) t
        | _ => b = true <-> value = t
        end.
Proof.
  intros L rx max c n t NE A H. exact (quotewildcard_exact L max NE rx c n t A H).
Qed.
Print Assumptions C03_quotewildcard_matches_only_itself.

Definition ctx2 : vctx :=
  {| c_local := [VStr []; VStr []]; c_match := [VStr []]; c_global := []; c_env := []; c_rtenv := [];
     c_envelope := []; c_message := fun _ => None |}.
Example C03_hypotheses_met :
  assignable ctx2 (TLocal 1) /\ blen (lit "a*b?c\d") + special_count (lit "a*b?c\d") <= 4096 /\
  (forall x, chr_lower ascii_lib x <> []) /\
  variable (fst (exec_set ascii_lib 4096 ctx2 [ModQuoteWildcard] (TLocal 1) (XText (lit "a*b?c\d")))) (TLocal 1)
  = Some (VStr (lit "a\*b\?c\\d")).
Proof. repeat split; try (vm_compute; repeat constructor). discriminate. Qed.

(** C03, with a text too long to be quoted: what is stored is the complete
    quoting of a prefix, so no escape is ever cut in half. *)
Theorem C03_quotewildcard_never_half_escaped :
  forall L max c n t,
    assignable c n ->
    exists p, is_prefix p t /\
      variable (fst (exec_set L max c [ModQuoteWildcard] n (XText t))) n =
        Some (VStr (flat_map (fun x => if N.eqb x c_star || N.eqb x c_quest || N.eqb x c_bslash
                                       then [c_bslash; x] else [x]) p)).
Proof. exact quotewildcard_prefix_plain. Qed.
Print Assumptions C03_quotewildcard_never_half_escaped.
Example C03_half_escape_case :
  variable (fst (exec_set ascii_lib 4 ctx2 [ModQuoteWildcard] (TLocal 1) (XText (lit "abc*d")))) (TLocal 1)
  = Some (VStr (lit "abc")).
Proof. reflexivity. Qed.

(** C11: a text stored in a local, global or envelope variable is the longest
    prefix of the assigned text that fits in max_variable_size bytes (in
    particular it is never cut inside a character, and it is the whole text when
    it fits); nothing else changes. *)
Theorem C11_stored_text_is_longest_prefix :
  forall L max c n s,
    assignable c n ->
    (exists p, variable (fst (set_variable L max c n (VStr s))) n = Some (VStr p) /\ longest_prefix max s p) /\
    (forall n', n <> n' -> variable (fst (set_variable L max c n (VStr s))) n' = variable c n').
Proof. exact stored_text. Qed.
Print Assumptions C11_stored_text_is_longest_prefix.
(** Three bytes of room: "a", then a two-byte character, then a cut. *)
Example C11_case :
  variable (fst (set_variable ascii_lib 4 ctx2 (TLocal 0) (VStr [97; 233; 233; 98]%N))) (TLocal 0)
  = Some (VStr [97; 233]%N).
Proof. reflexivity. Qed.

(** C11: 'set' with any modifiers. *)
Theorem C11_set_with_modifiers_bounded :
  forall L max c n mods x,
    assignable c n -> mods <> [] ->
    exists p, variable (fst (exec_set L max c mods n x)) n = Some (VStr p) /\ blen p <= max.
Proof. exact set_mods_bounded. Qed.
Print Assumptions C11_set_with_modifiers_bounded.
Example C11_mods_case :
  variable (fst (exec_set ascii_lib 5 ctx2 [ModUpper; ModQuoteWildcard] (TGlobal (lit "g")) (XText (lit "ab**c")))) (TGlobal (lit "g"))
  = Some (VStr (lit "AB\*")).
Proof. reflexivity. Qed.

(** C11, values that are not texts: kept as they are when the size the library
    computes for them fits, otherwise replaced by the longest prefix of their
    text. *)
Theorem C11_other_values :
  forall L max c n v,
    assignable c n -> (forall e, n <> TEnvelope e) ->
    (v_len v <= max -> variable (fst (set_variable L max c n v)) n = Some v) /\
    (max < v_len v -> exists p, variable (fst (set_variable L max c n v)) n = Some (VStr p) /\
                                longest_prefix max (v_text L v) p).
Proof. exact stored_other. Qed.
Print Assumptions C11_other_values.

(** C11, finding: the limit is not a bound on the text of a stored number,
    because every number counts as two bytes. *)
Theorem C11_number_exceeds_limit_refuted :
  exists L max c n v stored,
    assignable c n /\ variable (fst (set_variable L max c n v)) n = Some stored /\
    max < blen (v_text L stored).
Proof.
  exists ascii_lib, 4, ctx2, (TLocal 0), (VInt 1234567), (VInt 1234567).
  repeat split; vm_compute; repeat constructor.
Qed.
Print Assumptions C11_number_exceeds_limit_refuted.

(** C12: writing the modifiers of a 'set' in another order changes nothing, for
    any modifiers of pairwise different precedence and whatever order the
    (unstable) sort leaves equal elements in. *)
Theorem C12_modifier_order_irrelevant :
  forall tags1 tags2 mods1 mods2,
    Permutation tags1 tags2 ->
    (forall a b, In a tags1 -> In b tags1 -> mod_order a = mod_order b -> a = b) ->
    Permutation (collect_mods tags1 []) mods1 -> sorted_desc mod_order mods1 ->
    Permutation (collect_mods tags2 []) mods2 -> sorted_desc mod_order mods2 ->
    forall L max c n x, exec_set L max c mods1 n x = exec_set L max c mods2 n x.
Proof. exact modifier_order_exec. Qed.
Print Assumptions C12_modifier_order_irrelevant.

(** The modelled sort is such a sort, and modifiers are applied from the highest
    precedence to the lowest. *)
Theorem C12_modifiers_sorted :
  forall tags, Permutation (collect_mods tags []) (parse_mods tags) /\ sorted_desc mod_order (parse_mods tags).
Proof. exact parse_mods_sorts. Qed.
Print Assumptions C12_modifiers_sorted.
Example C12_case :
  parse_mods [ModLength; ModLower; ModUpperFirst; ModLower] = parse_mods [ModLower; ModUpperFirst; ModLength] /\
  variable (fst (exec_set ascii_lib 99 ctx2 (parse_mods [ModUpperFirst; ModLower]) (TLocal 0) (XText (lit "jOHN")))) (TLocal 0)
  = Some (VStr (lit "John")).
Proof. split; reflexivity. Qed.

(** C12: documented precedence, lowest first: length 10, encodeurl 15,
    quotewildcard 20, quoteregex 21, upperfirst 30, lowerfirst 31,
    upper/replace 40, lower 41.  Each distinct pair of argument-less modifiers
    has distinct precedences. *)
Theorem C12_distinct_precedence :
  forall a b, mod_order a = mod_order b ->
    a = b \/ (exists f r, a = ModReplace f r /\ (b = ModUpper \/ exists f' r', b = ModReplace f' r')) \/
             (exists f r, b = ModReplace f r /\ a = ModUpper).
Proof. exact mod_order_inj. Qed.
Print Assumptions C12_distinct_precedence.

(** C12, finding: ':upper' and ':replace' have the same precedence, so their
    order in the script matters. *)
Theorem C12_upper_replace_refuted :
  exists tags1 tags2 x,
    Permutation tags1 tags2 /\
    exec_set ascii_lib 99 ctx2 (parse_mods tags1) (TLocal 0) x <>
    exec_set ascii_lib 99 ctx2 (parse_mods tags2) (TLocal 0) x.
Proof.
  exists [ModUpper; ModReplace (XText (lit "a")) (XText (lit "z"))],
         [ModReplace (XText (lit "a")) (XText (lit "z")); ModUpper], (XText (lit "a")).
  split; [apply perm_swap|vm_compute; discriminate].
Qed.
Print Assumptions C12_upper_replace_refuted.

(** C13: ':encodeurl' produces only unreserved URI characters and percent
    escapes, percent-decoding gives back the UTF-8 bytes of the text (of a prefix
    of whole characters when the size limit is hit), and the result fits. *)
Theorem C13_encodeurl_decodes :
  forall L max c n t,
    assignable c n -> Forall valid_char t ->
    exists p out, is_prefix p t /\ (encoded_size t <= max -> p = t) /\
      variable (fst (exec_set L max c [ModEncodeUrl] n (XText t))) n = Some (VStr out) /\
      pct_decodes out (utf8 p) /\ blen out <= max.
Proof. exact encodeurl_exact. Qed.
Print Assumptions C13_encodeurl_decodes.
(** Percent-decoding is a function, so two texts with the same encoding are the
    same bytes. *)
Theorem C13_decoding_deterministic :
  forall t b1 b2, pct_decodes t b1 -> pct_decodes t b2 -> b1 = b2.
Proof. exact (fun t b1 b2 H => pct_decodes_det t b1 H b2). Qed.
Print Assumptions C13_decoding_deterministic.
Example C13_case :
  variable (fst (exec_set ascii_lib 99 ctx2 [ModEncodeUrl] (TLocal 0) (XText [97; 32; 233; 38]%N))) (TLocal 0)
  = Some (VStr (lit "a%20%c3%a9%26")) /\ encoded_size [97; 32; 233; 38]%N <= 99.
Proof. split; [reflexivity|vm_compute; repeat constructor]. Qed.
