(** Independent specification of mailto URIs and of the notification message. *)
From Verif Require Import Base Lib Var Value Message Event Notify.

(** No address occurs twice up to ASCII letter case. *)
Definition no_dup_addr (l : list text) : Prop := NoDup (map lower_text l).

(** [u] is a way to write the bytes [bs] in a URI where the bytes accepted by
    [plain] may stand for themselves and any byte may be written '%XX'. *)
Inductive written (plain : N -> bool) : list N -> list N -> Prop :=
| wr_nil : written plain [] []
| wr_plain : forall c u bs, plain c = true -> written plain u bs -> written plain (c :: u) (c :: bs)
| wr_pct : forall h1 h2 a b u bs, hexv h1 = Some a -> hexv h2 = Some b ->
    written plain u bs -> written plain (37%N :: h1 :: h2 :: u) ((a * 16 + b)%N :: bs).

(** Bytes with a meaning of their own somewhere in a mailto URI. *)
Definition reserved (c : N) : bool := existsb (N.eqb c) [37%N; 44%N; 63%N; 64%N; 61%N; 38%N].
Definition plain_addr (c : N) : bool := negb (reserved c) && negb (is_ws_ascii c).
(** Names and values are separated by '=' and '&' only. *)
Definition plain_name (c : N) : bool := is_alnum_ascii c || N.eqb c 45 || N.eqb c 95.
Definition plain_value (c : N) : bool :=
  negb (N.eqb c 37) && negb (N.eqb c 38) && negb (is_ws_ascii c).

(** [u] writes an address: a local part and a domain around one '@'; there is no
    comma in the address.  A local part may be empty only if '@' is escaped. *)
Definition clean_part (bs : list N) : Prop := Forall (fun c => c <> 44%N /\ c <> 64%N) bs.
Inductive addr_written : list N -> list N -> Prop :=
| aw_at : forall ul l ud d, written plain_addr ul l -> written plain_addr ud d -> l <> [] ->
    clean_part l -> clean_part d -> addr_written (ul ++ 64%N :: ud) (l ++ 64%N :: d)
| aw_pct : forall ul l h1 h2 ud d, written plain_addr ul l -> written plain_addr ud d ->
    hexv h1 = Some 4%N -> hexv h2 = Some 0%N ->
    clean_part l -> clean_part d -> addr_written (ul ++ 37%N :: h1 :: h2 :: ud) (l ++ 64%N :: d).

(** A comma separated list of addresses, each with the text it denotes. *)
Inductive addrs_written (dec : list N -> option text) : list N -> list text -> Prop :=
| asw_one : forall u bs a, addr_written u bs -> dec bs = Some a -> addrs_written dec u [a]
| asw_more : forall u bs a us l, addr_written u bs -> dec bs = Some a -> addrs_written dec us l ->
    addrs_written dec (u ++ 44%N :: us) (a :: l)
| asw_more_pct : forall u bs a h1 h2 us l, addr_written u bs -> dec bs = Some a -> addrs_written dec us l ->
    hexv h1 = Some 2%N -> hexv h2 = Some 12%N ->
    addrs_written dec (u ++ 37%N :: h1 :: h2 :: us) (a :: l).

(** A 'name=value' field: more recipients, the body, or another header. *)
Inductive field := FRcpt (k : akind) (l : list text) | FBody (v : text) | FHeader (n v : text) | FEmpty.
Inductive field_written (dec : list N -> option text) (parse : text -> option text) : list N -> field -> Prop :=
| fw_rcpt : forall un bn n h k us l, written plain_name un bn -> bn <> [] -> dec bn = Some n -> parse n = Some h ->
    teqb_ic h (match k with ATo => lit "to" | ACc => lit "cc" | ABcc => lit "bcc" end) = true ->
    addrs_written dec us l -> field_written dec parse (un ++ 61%N :: us) (FRcpt k l)
| fw_body : forall un bn n h uv bv v, written plain_name un bn -> bn <> [] -> dec bn = Some n -> parse n = Some h ->
    teqb_ic h (lit "body") = true ->
    written plain_value uv bv -> bv <> [] -> dec bv = Some v -> field_written dec parse (un ++ 61%N :: uv) (FBody v)
| fw_header : forall un bn n h uv bv v, written plain_name un bn -> bn <> [] -> dec bn = Some n -> parse n = Some h ->
    ~ In (lower_text h) [lit "to"; lit "cc"; lit "bcc"; lit "body"] ->
    written plain_value uv bv -> bv <> [] -> dec bv = Some v -> field_written dec parse (un ++ 61%N :: uv) (FHeader h v)
| fw_empty : forall un bn n h, written plain_name un bn -> bn <> [] -> dec bn = Some n -> parse n = Some h ->
    ~ In (lower_text h) [lit "to"; lit "cc"; lit "bcc"] ->
    field_written dec parse (un ++ [61%N]) FEmpty.
Inductive fields_written (dec : list N -> option text) (parse : text -> option text) : list N -> list field -> Prop :=
| fsw_one : forall u f, field_written dec parse u f -> fields_written dec parse u [f]
| fsw_more : forall u f us fs, field_written dec parse u f -> fields_written dec parse us fs ->
    fields_written dec parse (u ++ 38%N :: us) (f :: fs).

(** The recipients named by the fields, in order, with their kind. *)
Definition field_rcpts (f : field) : list (akind * text) :=
  match f with FRcpt k l => map (fun a => (k, a)) l | _ => [] end.
(** Later repetitions of an address (up to case, whatever the kind) are dropped. *)
Fixpoint drop_known (seen : list text) (l : list (akind * text)) : list (akind * text) :=
  match l with
  | [] => []
  | (k, a) :: l' => if existsb (teqb_ic a) seen then drop_known seen l'
                    else (k, a) :: drop_known (a :: seen) l'
  end.
Definition of_kind (k : akind) (l : list (akind * text)) : list text :=
  flat_map (fun p => match k, fst p with
                     | ATo, ATo | ACc, ACc | ABcc, ABcc => [snd p]
                     | _, _ => []
                     end) l.
Definition field_headers (f : field) : list (text * text) :=
  match f with FHeader n v => [(n, v)] | _ => [] end.
Fixpoint last_body (acc : option text) (fs : list field) : option text :=
  match fs with
  | [] => acc
  | FBody v :: fs' => last_body (Some v) fs'
  | _ :: fs' => last_body acc fs'
  end.

(** *** The message *)
(** The lines of a text, ended by CR LF. *)
Fixpoint lines_go (s cur : text) : list text :=
  match s with
  | [] => match cur with [] => [] | _ => [cur] end
  | c :: s' =>
      match s' with
      | d :: s'' => if N.eqb c 13 && N.eqb d 10 then cur :: lines_go s'' []
                    else lines_go s' (cur ++ [c])
      | [] => [cur ++ [c]]
      end
  end.
(** The header lines: those before the first empty line. *)
Fixpoint until_empty (l : list text) : list text :=
  match l with [] => [] | [] :: _ => [] | x :: l' => x :: until_empty l' end.
Definition header_lines (m : text) : list text := until_empty (lines_go m []).
(** A header line's name: what stands before the first colon. *)
Fixpoint line_name (s : text) : text :=
  match s with [] => [] | c :: s' => if N.eqb c 58 then [] else c :: line_name s' end.

Definition no_cr (s : text) : Prop := ~ In 13%N s.


(** The header names a notification carries of itself. *)
Definition fixed_names : list text :=
  [lit "From"; lit "To"; lit "Cc"; lit "Date"; lit "Message-ID"; lit "Importance"; lit "X-Priority"; lit "Subject";
   lit "Auto-Submitted"; lit "X-Sieve"; lit "Content-type"].
(** Everything that goes into the headers is free of carriage returns, and header
    names are free of colons. *)
Record clean (e : nenv) (a : nargs) (p : mailto) : Prop := {
  cl_from : forall f, n_from a = Some f -> no_cr f;
  cl_user : no_cr (v_addr e) /\ no_cr (v_name e);
  cl_date : no_cr (v_date e) /\ no_cr (v_msgid e);
  cl_addr : Forall no_cr (m_to p) /\ Forall no_cr (m_cc p);
  cl_hdrs : Forall (fun hv => no_cr (mh_text (fst hv)) /\ ~ In 58%N (mh_text (fst hv)) /\ no_cr (snd hv)) (m_headers p);
  cl_msg : forall m, n_message a = Some m -> no_cr m;
  cl_subj : forall m, v_subject e = Some m -> no_cr m
}.

(** An address: exactly one '@' and no comma, in bytes. *)
Definition one_at (bs : list N) : Prop := count_occ N.eq_dec bs 64%N = 1 /\ ~ In 44%N bs.
