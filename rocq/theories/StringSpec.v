(** What references in strings mean (RFC 5229 section 3, RFC 5228 section
    2.4.2.4), independently of the tokenizer: first the encoded characters are
    replaced, then the references. *)
From Verif Require Import Base Lib Var Value Utf8 StringTok.

Fixpoint span (p : N -> bool) (s : list N) : list N * list N :=
  match s with
  | [] => ([], [])
  | c :: r => if p c then let (a, b) := span p r in (c :: a, b) else ([], s)
  end.

(** *** Encoded characters *)

(** The value of hexadecimal digits. *)
Fixpoint hexval (w : list N) : N :=
  match w with [] => 0 | c :: r => hex_digit c * 16 ^ N.of_nat (length r) + hexval r end.

(** The codes of the body of an encoded sequence: the complete ones (followed by
    a blank) and the last, possibly empty, one. *)
Fixpoint cut_words (cur body : list N) : list (list N) * list N :=
  match body with
  | [] => ([], cur)
  | c :: r => if is_blank c
              then let (ws, w) := cut_words [] r in (match cur with [] => ws | _ => cur :: ws end, w)
              else cut_words (cur ++ [c]) r
  end.
Definition codes (body : list N) : list (list N) :=
  let (ws, w) := cut_words [] body in ws ++ match w with [] => [] | _ => [w] end.

(** A code, or a list of them: bytes; not a code, keep the text; or an error (not
    a character). *)
Inductive dres := DOk (b : list N) | DKeep | DErr.
Definition dec_word (uni : bool) (w : list N) : dres :=
  let v := hexval w in
  if uni then
    if N.leb v (2 ^ 32 - 1) then if scalarb v then DOk (utf8_char v) else DErr else DKeep
  else if N.leb v 255 then DOk [v] else DKeep.
Fixpoint dec_words (uni : bool) (ws : list (list N)) : dres :=
  match ws with
  | [] => DOk []
  | w :: ws' =>
      match dec_word uni w with
      | DOk b => match dec_words uni ws' with DOk b' => DOk (b ++ b') | x => x end
      | x => x
      end
  end.

(** What follows "${" at the beginning of [s], and what follows the byte [k]. *)
Definition after_open (s : list N) : option (list N) :=
  match s with
  | a :: b :: r => if N.eqb a 36 && N.eqb b 123 then Some r else None
  | _ => None
  end.
Definition after (k : N) (s : list N) : option (list N) :=
  match s with a :: r => if N.eqb a k then Some r else None | [] => None end.

(** "${hex:" or "${unicode:" in any case at the beginning of [s], and the longest
    sequence of hexadecimal digits and blanks that follows. *)
Definition enc_at (s : list N) : option (bool * list N * list N) :=
  match after_open s with
  | Some s1 =>
      let (kw, s2) := span is_alpha_ascii s1 in
      match after 58 s2 with
      | Some s3 =>
          let (body, r) := span (fun c => is_hex c || is_blank c) s3 in
          if teqb_ic kw (lit "hex") then Some (false, body, r)
          else if teqb_ic kw (lit "unicode") then Some (true, body, r)
          else None
      | None => None
      end
  | None => None
  end.
(** A whole encoded sequence at the beginning of [s]: what it stands for and what
    follows the closing brace. *)
Definition encoded (s : list N) : option (dres * list N) :=
  match enc_at s with
  | Some (uni, body, r) =>
      match after 125 r, codes body with
      | Some r', _ :: _ => Some (dec_words uni (codes body), r')
      | _, _ => None
      end
  | None => None
  end.

(** All encoded sequences replaced, from left to right; [None]: a code that is
    not a character.  [fuel]: at least the length. *)
Fixpoint decode_f (fuel : nat) (s : list N) : option (list N) :=
  match fuel, s with
  | S f, c :: r =>
      match encoded s with
      | Some (DOk b, r') => option_map (app b) (decode_f f r')
      | Some (DErr, _) => None
      | _ => option_map (cons c) (decode_f f r)
      end
  | _, _ => Some s
  end.
Definition decode (s : list N) : option (list N) := decode_f (length s) s.

(** *** References *)

(** Names are made of letters, digits, '_', '[', ']', '*', '-', '.', and ':' after
    a '.'. *)
Definition name_char (c : N) : bool := name_byte c || N.eqb c 46 || is_digit_ascii c.
Fixpoint name_span (ns : bool) (s : list N) : list N * list N :=
  match s with
  | [] => ([], [])
  | c :: r =>
      if name_char c || (N.eqb c 58 && ns)
      then let (a, b) := name_span (ns || N.eqb c 46) r in (c :: a, b)
      else ([], s)
  end.
(** "${name}" at the beginning of [s]. *)
Definition ref_at (s : list N) : option (list N * list N) :=
  match after_open s with
  | Some s1 =>
      let (n, r) := name_span false s1 in
      match n, after 125 r with
      | _ :: _, Some r' => Some (n, r')
      | _, _ => None
      end
  | None => None
  end.

Inductive spiece := SByte (b : N) | SRef (name : list N).
Fixpoint pieces_f (fuel : nat) (s : list N) : list spiece :=
  match fuel, s with
  | S f, c :: r =>
      match ref_at s with
      | Some (n, r') => SRef n :: pieces_f f r'
      | None => SByte c :: pieces_f f r
      end
  | _, _ => []
  end.
Definition pieces (s : list N) : list spiece := pieces_f (length s) s.

(** All digits, resp. with a '.': numbered variables and name spaces. *)
Definition all_digits (n : list N) : bool := forallb is_digit_ascii n.
Definition has_dot (n : list N) : bool := existsb (N.eqb 46) n.

Section Meaning.
  Variable L : rustlib.
  Variable resolve : list N -> bool -> bool -> vres.
  Variable c : vctx.

  (** The text of a reference; [None]: an error. *)
  Definition ref_text (n : list N) : option text :=
    match resolve n (all_digits n) (has_dot n) with
    | RVar v => Some (match variable c v with Some x => v_text L x | None => [] end)
    | RUnknown => Some []
    | RLiteral => Some (opened n ++ [125%N])
    | RError => None
    end.

  Definition cat (a b : option text) : option text :=
    match a, b with Some x, Some y => Some (x ++ y) | _, _ => None end.
  (** The concatenation of the pieces; [acc]: literal bytes not yet decoded. *)
  Fixpoint render (acc : list N) (ps : list spiece) : option text :=
    match ps with
    | [] => Some (utf8_lossy acc)
    | SByte b :: ps' => render (acc ++ [b]) ps'
    | SRef n :: ps' => cat (Some (utf8_lossy acc)) (cat (ref_text n) (render [] ps'))
    end.

  (** The meaning of a string; [None]: a compile error. *)
  Definition string_meaning (bs : list N) : option text :=
    match decode bs with Some d => render [] (pieces d) | None => None end.
End Meaning.

(** Two irregularities: after codes that were replaced, a last code that is too
    large right before the closing brace; a code that is not a character in a
    sequence that is not closed. *)
Definition late_overflow (s : list N) : bool :=
  match enc_at s with
  | Some (uni, body, r) =>
      let (ws, w) := cut_words [] body in
      match after 125 r, ws, w, dec_words uni ws, dec_word uni w with
      | Some _, _ :: _, _ :: _, DOk _, DKeep => true
      | _, _, _, _, _ => false
      end
  | _ => false
  end.
Definition open_error (s : list N) : bool :=
  match enc_at s with
  | Some (uni, body, r) =>
      match after 125 r, dec_words uni (fst (cut_words [] body)) with
      | None, DErr => true
      | _, _ => false
      end
  | None => false
  end.
Definition regular (bs : list N) : Prop :=
  forall pre s, bs = pre ++ s -> late_overflow s = false /\ open_error s = false.

(** Texts without "${". *)
Fixpoint no_open (s : list N) : Prop :=
  match s with [] => True | _ :: r => after_open s = None /\ no_open r end.
(** Names. *)
Definition is_name (n : list N) : Prop := n <> [] /\ name_span false (n ++ [125%N]) = (n, [125%N]).
(** A string with references between texts, and what it stands for. *)
Fixpoint with_refs (segs : list (text * list N)) (last : text) : list N :=
  match segs with
  | [] => utf8 last
  | (t, n) :: segs' => utf8 t ++ opened n ++ 125%N :: with_refs segs' last
  end.
Fixpoint concat_refs (val : list N -> option text) (segs : list (text * list N)) (last : text) : option text :=
  match segs with
  | [] => Some last
  | (t, n) :: segs' => cat (Some t) (cat (val n) (concat_refs val segs' last))
  end.
