(** Independent specifications for 'set' and its modifiers. *)
From Verif Require Import Base Lib Var Value.

Definition is_prefix (p s : text) : Prop := exists r, s = p ++ r.

(** [p] is the longest prefix of [s] that takes at most [max] bytes. *)
Definition longest_prefix (max : nat) (s p : text) : Prop :=
  is_prefix p s /\ blen p <= max /\
  forall q, is_prefix q s -> blen q <= max -> length q <= length p.

(** Percent decoding: a text of unreserved URI characters and percent escapes
    and the bytes it stands for. *)
Definition hexval (c : ch) : option N :=
  if between 48 57 c then Some (c - 48)%N
  else if between 97 102 c then Some (c - 87)%N
  else if between 65 70 c then Some (c - 55)%N else None.
(** RFC 3986 section 2.3: ALPHA / DIGIT / "-" / "." / "_" / "~" *)
Definition uri_unreserved (c : ch) : Prop :=
  (65 <= c <= 90 \/ 97 <= c <= 122 \/ 48 <= c <= 57 \/ c = 45 \/ c = 46 \/ c = 95 \/ c = 126)%N.
Inductive pct_decodes : text -> list N -> Prop :=
| pd_nil : pct_decodes [] []
| pd_char : forall c t bs, uri_unreserved c -> pct_decodes t bs -> pct_decodes (c :: t) (c :: bs)
| pd_esc : forall a b x y t bs, hexval a = Some x -> hexval b = Some y ->
    pct_decodes t bs -> pct_decodes (37%N :: a :: b :: t) ((16 * x + y)%N :: bs).

(** Bytes needed to write one character percent-encoded. *)
Definition encoded_size (s : text) : nat :=
  list_sum (map (fun c => if is_alnum_ascii c || N.eqb c 45 || N.eqb c 46 || N.eqb c 95 || N.eqb c 126
                          then 1 else 3 * len_utf8 c) s).

(** Number of characters that ':quotewildcard' has to escape. *)
Definition special_count (s : text) : nat :=
  length (filter (fun c => N.eqb c c_star || N.eqb c c_quest || N.eqb c c_bslash) s).

(** A list sorted by decreasing key. *)
Inductive sorted_desc {A} (key : A -> nat) : list A -> Prop :=
| sd_nil : sorted_desc key []
| sd_one : forall x, sorted_desc key [x]
| sd_cons : forall x y l, key y <= key x -> sorted_desc key (y :: l) -> sorted_desc key (x :: y :: l).

(** Unicode scalar values are below 0x110000. *)
Definition valid_char (c : ch) : Prop := (c < 1114112)%N.

(** A variable that 'set' can assign: an allocated local, a global or an
    envelope item. *)
Definition assignable (c : vctx) (n : vartype) : Prop :=
  match n with
  | TLocal i => i < length (c_local c)
  | TGlobal _ | TEnvelope _ => True
  | _ => False
  end.
