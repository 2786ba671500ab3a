(** References in strings. *)
From Verif Require Import Base Lib Var Value Utf8 Lexer Scope StringTok StringSpec StringProofs StringProofs2 StringProofs3.

Notation text_of L c := (option_map (fun v => v_text L (eval_value L c v))).

(** * C41.  A string denotes the concatenation of its texts and the values of its
    references, in order (an error if one of them is an error). *)
Theorem C41_concat : forall L resolve c segs last,
  Forall (fun p => Forall scalar (fst p) /\ no_open (utf8 (fst p)) /\ is_name (snd p)) segs ->
  Forall scalar last -> no_open (utf8 last) ->
  text_of L c (tokenize_string L resolve (with_refs segs last)) = concat_refs (ref_text L resolve c) segs last.
Proof. exact refs_ok. Qed.
Print Assumptions C41_concat.

(** A string without "${" denotes itself. *)
Theorem C41_plain : forall L resolve c t, Forall scalar t -> no_open (utf8 t) ->
  text_of L c (tokenize_string L resolve (utf8 t)) = Some t.
Proof. intros L resolve c t S H. exact (refs_ok L resolve c [] t (Forall_nil _) S H). Qed.
Print Assumptions C41_plain.

(** Any string: first the encoded characters are replaced, then the references; what is
    neither is kept.  Full statement: without [regular], which is false (below). *)
Theorem C41_meaning_partial : forall L resolve c bs, regular bs ->
  text_of L c (tokenize_string L resolve bs) = string_meaning L resolve c bs.
Proof. exact tokenize_ok. Qed.
Print Assumptions C41_meaning_partial.

(** In a script in which [a] is the only variable, after a match test. *)
Definition s_vars : vst :=
  {| v_blk := [(lit "a", 0)]; v_stk := []; v_num := 1; v_max := 1; v_loc := 0; v_glob := [] |}.
Definition s_refs : list N -> bool -> bool -> vres :=
  resolve_ref ascii_lib (fun _ => None) s_vars true.
Definition s_ctx : vctx :=
  {| c_local := [VStr (lit "X")]; c_match := [VStr (lit "all"); VStr (lit "one")]; c_global := []; c_env := []; c_rtenv := [];
     c_envelope := []; c_message := fun _ => None |}.
Definition s_text (s : string) : option text := text_of ascii_lib s_ctx (tokenize_string ascii_lib s_refs (lit s)).

Definition s_segs : list (text * list N) :=
  [(lit "$5 for ", lit "A"); (lit " and $", lit "1"); ([233%N], lit "unknown"); ([], lit "no.such")].
Example C41_concat_ex :
  Forall (fun p => Forall scalar (fst p) /\ no_open (utf8 (fst p)) /\ is_name (snd p)) s_segs /\
  concat_refs (ref_text ascii_lib s_refs s_ctx) s_segs (lit "!") =
    Some (lit "$5 for X and $one" ++ [233%N] ++ lit "${no.such}!").
Proof.
  split; [|vm_compute; reflexivity].
  repeat constructor; cbn; try discriminate; try (unfold scalar; lia); vm_compute; try reflexivity.
Qed.
Example C41_meaning_ex :
  s_text "${hex:24 7b}a} ${Unicode: 41}${} ${a b} ${hex:zz} ${" = Some (lit "X A${} ${a b} ${hex:zz} ${") /\
  string_meaning ascii_lib s_refs s_ctx (lit "${hex:24 7b}a} ${Unicode: 41}${} ${a b} ${hex:zz} ${") =
    Some (lit "X A${} ${a b} ${hex:zz} ${") /\
  s_text "${unicode:d800}" = None /\ s_text "${63}" = None.
Proof. vm_compute. repeat split; reflexivity. Qed.

(** The two irregularities: a code that is too large after others, right before the closing
    brace, does not keep the sequence as it is but decodes the others as well; a code that
    is not a character is an error even in a sequence that is not closed. *)
Theorem C41_meaning_refuted :
  (string_meaning ascii_lib s_refs s_ctx (lit "${hex:41 fff}") = Some (lit "${hex:41 fff}") /\
   s_text "${hex:41 fff}" = Some (lit "A${hex:41 fff}")) /\
  (string_meaning ascii_lib s_refs s_ctx (lit "${unicode:d800 }x") = None /\
   string_meaning ascii_lib s_refs s_ctx (lit "${unicode:d800 x") = Some (lit "${unicode:d800 x") /\
   s_text "${unicode:d800 x" = None).
Proof. vm_compute. repeat split; reflexivity. Qed.
Print Assumptions C41_meaning_refuted.
