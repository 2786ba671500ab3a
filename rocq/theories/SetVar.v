(** Model of the 'set' action: src/runtime/actions/action_set.rs and the parsing
    of its modifiers, src/compiler/grammar/actions/action_set.rs. *)
From Verif Require Import Base Lib Var Value.

(** grammar/actions/action_set.rs 29-39 [Modifier] *)
Inductive modifier :=
| ModLower | ModUpper | ModLowerFirst | ModUpperFirst
| ModQuoteWildcard | ModQuoteRegex | ModEncodeUrl | ModLength
| ModReplace (find replace : value).

(** grammar/actions/action_set.rs 42-54 [Modifier::order] *)
Definition mod_order (m : modifier) : nat :=
  match m with
  | ModLower => 41
  | ModUpper => 40
  | ModLowerFirst => 31
  | ModUpperFirst => 30
  | ModQuoteWildcard => 20
  | ModQuoteRegex => 21
  | ModEncodeUrl => 15
  | ModLength => 10
  | ModReplace _ _ => 40
  end.

(** grammar/actions/action_set.rs 29-39. Decidable identity of the argument-less modifiers
    ([PartialEq]). *)
Definition same_simple (a b : modifier) : bool :=
  match a, b with
  | ModLower, ModLower | ModUpper, ModUpper | ModLowerFirst, ModLowerFirst
  | ModUpperFirst, ModUpperFirst | ModQuoteWildcard, ModQuoteWildcard
  | ModQuoteRegex, ModQuoteRegex | ModEncodeUrl, ModEncodeUrl | ModLength, ModLength => true
  | _, _ => false
  end.

(** grammar/actions/action_set.rs 92-119: the modifiers collected while reading
    the tags, in script order; argument-less ones are not repeated. *)
Fixpoint collect_mods (tags acc : list modifier) : list modifier :=
  match tags with
  | [] => acc
  | m :: tags' =>
      match m with
      | ModReplace _ _ => collect_mods tags' (acc ++ [m])
      | _ => collect_mods tags' (if existsb (same_simple m) acc then acc else acc ++ [m])
      end
  end.

(** grammar/actions/action_set.rs 132 [sort_unstable_by_key(Reverse(order))]:
    insertion sort by decreasing order (stable; the Rust sort need not be, which
    only matters for equal orders). *)
Fixpoint insert_mod (m : modifier) (l : list modifier) : list modifier :=
  match l with
  | [] => [m]
  | x :: l' => if Nat.ltb (mod_order x) (mod_order m) then m :: l else x :: insert_mod m l'
  end.
(** grammar/actions/action_set.rs 87-141: [modifiers.sort_unstable_by_key(order, reversed)]. *)
Fixpoint sort_mods (l : list modifier) : list modifier :=
  match l with [] => [] | m :: l' => insert_mod m (sort_mods l') end.
(** grammar/actions/action_set.rs 87-141: the modifiers of a set as they are compiled. *)
Definition parse_mods (tags : list modifier) : list modifier := sort_mods (collect_mods tags []).

Section S.
  Variable L : rustlib.
  (** runtime.max_variable_size *)
  Variable max : nat.

  (** action_set.rs 103-134: LowerFirst/UpperFirst with case mapping [f]; the
      loop over [input.chars().enumerate()], [res] being the result so far. *)
  Fixpoint first_rest (s res : text) : text :=
    match s with
    | [] => res
    | c :: s' => if Nat.leb (blen res + len_utf8 c) max then first_rest s' (res ++ [c]) else res
    end.
  (** action_set.rs 103-136: [:lowerfirst] and [:upperfirst]. *)
  Definition first_case (f : ch -> text) (s : text) : text :=
    match s with
    | [] => []
    | c :: s' => if Nat.leb (len_utf8 c) max then first_rest s' (f c) else []
    end.

  (** action_set.rs 135-177: QuoteWildcard / QuoteRegex with the set of special
      characters [sp]. *)
  Fixpoint quote_go (sp s res : text) : text :=
    match s with
    | [] => res
    | c :: s' =>
        if mem_ch c sp then
          if Nat.ltb (blen res + len_utf8 c) max then quote_go sp s' (res ++ [c_bslash; c]) else res
        else if Nat.leb (blen res + len_utf8 c) max then quote_go sp s' (res ++ [c]) else res
    end.
  (** action_set.rs 137-154: the characters [:quotewildcard] escapes. *)
  Definition wildcard_special : text := [42; 92; 63]%N.     (* star, backslash, question mark *)
  (** action_set.rs 155-178: the characters [:quoteregex] escapes. *)
  Definition regex_special : text := lit "*\?.[]()+{}|^=:$".

  (** action_set.rs 179-198: EncodeUrl. *)
  Definition hex_digit (n : N) : ch := if N.ltb n 10 then (48 + n)%N else (87 + n)%N.
  (** action_set.rs 179-203: [format!("%{:02x}")] of one byte. *)
  Definition pct (b : N) : text := [37%N; hex_digit (b / 16); hex_digit (b mod 16)].
  (** action_set.rs 179-203: the bytes [:encodeurl] keeps. *)
  Definition unreserved (c : ch) : bool := is_alnum_ascii c || mem_ch c (lit "-._~").
  (** action_set.rs 179-203: the loop of [:encodeurl]. *)
  Fixpoint encode_go (s res : text) : text :=
    match s with
    | [] => res
    | c :: s' =>
        if unreserved c then
          if Nat.ltb (blen res) max then encode_go s' (res ++ [c]) else res
        else if Nat.leb (blen res + len_utf8 c * 3) max
             then encode_go s' (res ++ flat_map pct (utf8_char c)) else res
    end.

  (** action_set.rs 97-205 [Modifier::apply] *)
  Definition mod_apply (c : vctx) (m : modifier) (input : text) : text :=
    match m with
    | ModLower => str_lower L input
    | ModUpper => str_upper L input
    | ModLowerFirst => first_case (chr_lower L) input
    | ModUpperFirst => first_case (chr_upper L) input
    | ModQuoteWildcard => quote_go wildcard_special input []
    | ModQuoteRegex => quote_go regex_special input []
    | ModLength => show_N (N.of_nat (length input))
    | ModEncodeUrl => encode_go input []
    | ModReplace f r =>
        treplace input (v_text L (eval_value L c f)) (v_text L (eval_value L c r))
    end.

  (** action_set.rs 31-38: the longest prefix of at most [max] bytes. *)
  Fixpoint cut_go (s res : text) : text :=
    match s with
    | [] => res
    | c :: s' => if Nat.leb (len_utf8 c + blen res) max then cut_go s' (res ++ [c]) else res
    end.
  (** action_set.rs 29-59: the cut at [max_variable_size]. *)
  Definition limit (v : var) : var :=
    if Nat.ltb max (v_len v) then VStr (cut_go (v_text L v) []) else v.

  (** action_set.rs 29-59: the first envelope item of the kind is replaced. *)
  Fixpoint env_update (e : envk) (v : var) (l : list (envk * var)) : list (envk * var) :=
    match l with
    | [] => [(e, v)]
    | (e', v') :: l' => if envk_eqb e' e then (e', v) :: l' else (e', v') :: env_update e v l'
    end.

  (** Field update of the context (no lines of /repo of its own: an assignment). *)
  Definition set_local (c : vctx) (l : list var) : vctx :=
    {| c_local := l; c_match := c_match c; c_global := c_global c; c_env := c_env c;
       c_rtenv := c_rtenv c; c_envelope := c_envelope c; c_message := c_message c |}.
  (** Field update of the context (no lines of /repo of its own: an assignment). *)
  Definition set_global (c : vctx) (g : list (text * var)) : vctx :=
    {| c_local := c_local c; c_match := c_match c; c_global := g; c_env := c_env c;
       c_rtenv := c_rtenv c; c_envelope := c_envelope c; c_message := c_message c |}.
  (** Field update of the context (no lines of /repo of its own: an assignment). *)
  Definition set_envelope (c : vctx) (e : list (envk * var)) : vctx :=
    {| c_local := c_local c; c_match := c_match c; c_global := c_global c; c_env := c_env c;
       c_rtenv := c_rtenv c; c_envelope := e; c_message := c_message c |}.

  (** action_set.rs 29-59 [set_variable] and 61-75 [add_set_envelope_event].
      Result: the new context and the queued SetEnvelope event, if any. *)
  Definition set_variable (c : vctx) (name : vartype) (v : var) : vctx * option (envk * text) :=
    let v := limit v in
    match name with
    | TLocal i => (set_local c (upd i v (c_local c)), None)
    | TGlobal n => (set_global c (ainsert n v (c_global c)), None)
    | TEnvelope e =>
        let t := v_text L v in
        (set_envelope c (env_update e (VStr t) (c_envelope c)), Some (e, t))
    | _ => (c, None)
    end.

  (** action_set.rs 18-25 [Set::exec] *)
  Fixpoint apply_mods (c : vctx) (mods : list modifier) (v : var) : var :=
    match mods with
    | [] => v
    | m :: mods' => apply_mods c mods' (VStr (mod_apply c m (v_text L v)))
    end.
  (** action_set.rs 18-25 [Set::exec]. *)
  Definition exec_set (c : vctx) (mods : list modifier) (name : vartype) (x : value)
    : vctx * option (envk * text) :=
    set_variable c name (apply_mods c mods (eval_value L c x)).
End S.
