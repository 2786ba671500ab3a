(** Model of the parsed message and of the traversals and header tests over it:
    src/runtime/tests/mime.rs, test_header.rs, test_exists.rs, test_size.rs,
    test_body.rs. *)
From Verif Require Import Base Lib Var Value Glob Comparator.

(** No lines of /repo: . mail_parser's ContentType.  Names and values are texts. *)
Record ctype := {
  ct_type : text;
  ct_subtype : option text;
  ct_attrs : option (list (text * text))
}.
(** No lines of /repo: . mail_parser's HeaderValue: only the variants the library looks at. *)
Inductive hvalue := HText (t : text) | HContentType (ct : ctype) | HOther.

(** No lines of /repo: . mail_parser's Header.  [h_raw] says that [offset_end] is not 0 (a header of the
    original message); [h_plain] is the unstructured text of its raw bytes (mail_parser's work), [h_bytes]
    is [offset_end - offset_field]. *)
Record header := {
  h_name : text;
  h_raw : bool;
  h_val : hvalue;
  h_plain : text;
  h_bytes : nat
}.

(** No lines of /repo: . mail_parser's MessagePart and Message (the list of its parts). *)
Inductive part :=
| Part (headers : list header) (ct : option ctype) (body : pbody)
with pbody :=
| BText (t : text)
| BHtml (t : text)
| BBinary (bytes : text)
| BMulti (subparts : list nat)
| BMessage (parts : list part).

(** Field of a part (mail_parser's MessagePart; no lines of /repo). *)
Definition p_headers (p : part) : list header := match p with Part h _ _ => h end.
(** Field of a part: its Content-Type (mail_parser's MessagePart; no lines of /repo). *)
Definition p_ct (p : part) : option ctype := match p with Part _ c _ => c end.
(** Field of a part (mail_parser's MessagePart; no lines of /repo). *)
Definition p_body (p : part) : pbody := match p with Part _ _ b => b end.
(** Field update of a part (no lines of /repo of its own: an assignment). *)
Definition set_headers (h : list header) (p : part) : part :=
  match p with Part _ c b => Part h c b end.

(** No lines of /repo: . Equality of mail_parser's HeaderName: names are compared without regard to
    ASCII case.  Simplification: the known-name variants are texts too. *)
Definition hn_eqb (a b : text) : bool := teqb_ic a b.

(** No lines of /repo: . mail_parser functions that stay abstract. *)
Record mailparser := {
  hn_parse : text -> option text;        (* HeaderName::parse, as a name text *)
  parse_ct : text -> hvalue              (* MessageStream::parse_content_type *)
}.

(** *** Traversals (tests/mime.rs) *)

(** runtime/tests/mime.rs 37-56: the parts of a multipart. *)
Definition part_children (p : part) : list nat :=
  match p_body p with BMulti l => l | _ => [] end.

(** mime.rs 19-57 [SubpartIterator]: the parts it returns, in order; [None] is
    fuel exhaustion.  A missing part ends the iteration (line 40). *)
Fixpoint sub_go (parts : list part) (anychild : bool) (fuel : nat) (iter : list nat)
         (stack : list (list nat)) : option (list (nat * part)) :=
  match fuel with
  | 0 => None
  | S f =>
      match iter with
      | id :: iter' =>
          match nth_error parts id with
          | None => Some []
          | Some p =>
              option_map (cons (id, p))
                (match p_body p with
                 | BMulti subs => if anychild then sub_go parts anychild f subs (iter' :: stack)
                                  else sub_go parts anychild f iter' stack
                 | _ => sub_go parts anychild f iter' stack
                 end)
          end
      | [] => match stack with
              | [] => Some []
              | i :: s => sub_go parts anychild f i s
              end
      end
  end.
(** No counterpart in the code: enough iterations for [subparts]. *)
Definition sub_fuel (parts : list part) : nat := 2 * length parts + 2.
(** runtime/tests/mime.rs 19-57 [SubpartIterator], all that it returns. *)
Definition subparts (parts : list part) (root : nat) (anychild : bool) : option (list (nat * part)) :=
  sub_go parts anychild (sub_fuel parts) [root] [].

(** mime.rs 142-182 [find_nested_parts_ids]: the loop for a part that is not the
    root; a missing part is recorded but not entered. *)
Fixpoint ids_go (parts : list part) (fuel : nat) (iter : list nat) (stack : list (list nat))
  : option (list nat) :=
  match fuel with
  | 0 => None
  | S f =>
      match iter with
      | id :: iter' =>
          option_map (cons id)
            (match nth_error parts id with
             | Some p => match p_body p with
                         | BMulti subs => ids_go parts f subs (iter' :: stack)
                         | _ => ids_go parts f iter' stack
                         end
             | None => ids_go parts f iter' stack
             end)
      | [] => match stack with
              | [] => Some []
              | i :: s => ids_go parts f i s
              end
      end
  end.
(** runtime/tests/mime.rs 142-182 [find_nested_parts_ids]. *)
Definition nested_ids (parts : list part) (current : nat) (include_current : bool) : option (list nat) :=
  if Nat.eqb current 0 then
    Some (if include_current then seq 0 (length parts)
          else if Nat.ltb 1 (length parts) then seq 1 (length parts - 1) else [])
  else
    option_map (fun l => (if include_current then [current] else []) ++ l)
      (match nth_error parts current with
       | Some p => match p_body p with
                   | BMulti subs => ids_go parts (sub_fuel parts) subs []
                   | _ => Some []
                   end
       | None => Some []
       end).

(** No counterpart in the code: fuel. Number of parts, those of nested messages included. *)
Fixpoint part_size (p : part) : nat :=
  match p with
  | Part _ _ (BMessage ps) => S (list_sum (map part_size ps))
  | Part _ _ _ => 1
  end.

(** mime.rs 60-140 [find_nested_parts]: the parts visited, in order, before the
    content type filter; enters nested messages.  The stack holds the iterator
    to go back to and, for a nested message, the enclosing message. *)
Fixpoint deep_go (fuel : nat) (parts : list part) (iter : list nat)
         (stack : list (list nat * option (list part))) : option (list part) :=
  match fuel with
  | 0 => None
  | S f =>
      match iter with
      | id :: iter' =>
          match nth_error parts id with
          | None => deep_go f parts iter' stack
          | Some p =>
              option_map (cons p)
                (match p_body p with
                 | BMulti subs => deep_go f parts subs ((iter', None) :: stack)
                 | BMessage ps => deep_go f ps [0] ((iter', Some parts) :: stack)
                 | _ => deep_go f parts iter' stack
                 end)
          end
      | [] => match stack with
              | [] => Some []
              | (i, None) :: s => deep_go f parts i s
              | (i, Some ps) :: s => deep_go f ps i s
              end
      end
  end.
(** runtime/tests/mime.rs 60-140 [find_nested_parts], the parts visited. *)
Definition deep_parts (parts : list part) (current : nat) : option (list part) :=
  deep_go (3 * list_sum (map part_size parts) + 2) parts [current] [].

(** mime.rs 13-17 [ContentTypeFilter] and 184-206 its parser. *)
Inductive ctfilter := CtType (t : text) | CtTypeSubtype (t s : text).
(** Rust core: [str::split('/')]. *)
Fixpoint split_slash (s : text) : list text :=
  match s with
  | [] => [[]]
  | c :: s' => if N.eqb c 47 then [] :: split_slash s'
               else match split_slash s' with [] => [[c]] | w :: ws => (c :: w) :: ws end
  end.
(** runtime/tests/mime.rs 186-203 [ContentTypeFilter::parse]. *)
Definition ctfilter_parse (s : text) : option ctfilter :=
  match split_slash s with
  | [[]] => None
  | [t] => Some (CtType t)
  | [[]; _] | [_; []] => None
  | [t; u] => Some (CtTypeSubtype t u)
  | _ => None
  end.
(** mime.rs 72-108: does a part pass the filter?  Without a Content-Type header
    the type is derived from the body. *)
Definition part_type (p : part) : text * text :=
  match p_ct p with
  | Some ct => (ct_type ct, match ct_subtype ct with Some s => s | None => [] end)
  | None => match p_body p with
            | BText _ => (lit "text", lit "plain")
            | BHtml _ => (lit "text", lit "html")
            | BMessage _ => (lit "message", lit "rfc822")
            | BMulti _ => (lit "multipart", lit "mixed")
            | BBinary _ => (lit "application", lit "octet-stream")
            end
  end.
(** runtime/tests/mime.rs 60-140: the filter by content type. *)
Definition passes (f : list ctfilter) (p : part) : bool :=
  match f with
  | [] => true
  | _ => existsb (fun x => match x with
                           | CtType t => teqb_ic t (fst (part_type p))
                           | CtTypeSubtype t s => teqb_ic t (fst (part_type p)) && teqb_ic s (snd (part_type p))
                           end) f
  end.

(** *** Headers (tests/test_header.rs) *)

(** test_header.rs 225-271: the headers of one part visited for one name: all,
    the [n]th from the top, or the [n]th from the bottom. *)
Fixpoint number_from {A} (i : nat) (l : list A) : list (nat * A) :=
  match l with [] => [] | x :: l' => (i, x) :: number_from (S i) l' end.
(** the loop of lines 240-253 and 259-270: [count] headers of that name seen so
    far. *)
Fixpoint nth_named (name : text) (index count : Z) (l : list (nat * header)) : list (nat * header) :=
  match l with
  | [] => []
  | (pos, h) :: l' =>
      if hn_eqb (h_name h) name then
        if Z.eqb (count + 1) index then [(pos, h)] else nth_named name index (count + 1) l'
      else nth_named name index count l'
  end.
(** test_header.rs 215-275 [find_headers], in one part and for one name. *)
Definition select_headers (index : option Z) (name : text) (headers : list header) : list (nat * header) :=
  match index with
  | None => filter (fun ph => hn_eqb (h_name (snd ph)) name) (number_from 0 headers)
  | Some i => if Z.leb 0 i then nth_named name i 0 (number_from 0 headers)
              else nth_named name (- i) 0 (rev (number_from 0 headers))
  end.

(** test_header.rs 215-275: what the visitor is given. A header together with where it is. *)
Record located := { l_part : nat; l_pos : nat; l_header : header }.

(** test_header.rs 215-275 [find_headers]: the headers handed to the visitor, in
    order (a visitor that answers true just stops there). *)
Definition find_headers (parts : list part) (current : nat) (names : list text)
           (index : option Z) (anychild : bool) : option (list located) :=
  option_map
    (flat_map (fun ip =>
       flat_map (fun name =>
         map (fun ph => {| l_part := fst ip; l_pos := fst ph; l_header := snd ph |})
             (select_headers index name (p_headers (snd ip)))) names))
    (subparts parts current anychild).

(** grammar/actions/action_mime.rs 83-89. grammar/actions/action_mime.rs [MimeOpts] *)
Inductive mimeopts := MoNone | MoType | MoSubtype | MoContentType | MoParam (params : list text).

(** test_header.rs 313-318: names whose parsed text is used as it is. *)
Definition text_header (name : text) : bool :=
  existsb (hn_eqb name)
    [lit "Subject"; lit "Comments"; lit "Content-Description"; lit "Content-Location";
     lit "Content-Transfer-Encoding"].

(** test_header.rs 278-362: the content type as type/subtype. *)
Definition ct_full (ct : ctype) : text :=
  match ct_subtype ct with
  | Some s => ct_type ct ++ 47%N :: s
  | None => ct_type ct
  end.

Section H.
  Variable L : rustlib.
  Variable rx : text -> text -> option (list (option text)).
  Variable M : mailparser.

  (** test_header.rs 278-362 [find_header_values]: the values handed to the
      visitor, in order. *)
  Definition header_values (h : header) (o : mimeopts) : list text :=
    let structured (v : hvalue) : list text :=
      match o, v with
      | MoType, HContentType ct => [ct_type ct]
      | MoSubtype, HContentType ct => [match ct_subtype ct with Some s => s | None => [] end]
      | MoContentType, HContentType ct => [ct_full ct]
      | MoParam params, HContentType ct =>
          match ct_attrs ct with
          | Some attrs => flat_map (fun p => map snd (filter (fun a => teqb_ic p (fst a)) attrs)) params
          | None => []
          end ++ [[]]
      | _, _ => [[]]
      end in
    if h_raw h then
      match o with
      | MoNone => match h_val h with
                  | HText t => if text_header (h_name h) then [t] else [h_plain h]
                  | _ => [h_plain h]
                  end
      | _ => structured (h_val h)
      end
    else
      match h_val h with
      | HText t => match o with MoNone => [t] | _ => structured (parse_ct M t) end
      | _ => []
      end.

  (** The visitor of test_header.rs 32-104: each value in turn against the keys,
      first success wins. *)
  Fixpoint values_loop (c : comparator) (m : mtype) (values : list text) (keys : list var)
           (caps : list (nat * text)) : cres :=
    match values with
    | [] => CRes false caps
    | v :: rest =>
        match first_key L rx c m (KStr v) keys caps with
        | CPanic => CPanic
        | CRes true caps' => CRes true caps'
        | CRes false caps' => values_loop c m rest keys caps'
        end
    end.

  (** test_header.rs 108-136: what ':count' counts. *)
  Definition header_count1 (o : mimeopts) (h : header) : nat :=
    match o with
    | MoNone => 1
    | MoType | MoSubtype | MoContentType =>
        match h_val h with HContentType _ => 1 | _ => 0 end
    | MoParam params =>
        match h_val h with
        | HContentType ct =>
            match ct_attrs ct with
            | Some attrs => length (filter (fun a => existsb (fun p => teqb_ic p (fst a)) params) attrs)
            | None => 0
            end
        | _ => 0
        end
    end.

  (** test_header.rs 20-187 [TestHeader::exec].  [names] are the header names
      already evaluated and parsed, [keys] the evaluated keys; [None] is fuel
      exhaustion of the traversal. *)
  Definition header_test (parts : list part) (current : nat) (names : list text) (index : option Z)
             (anychild : bool) (o : mimeopts) (c : comparator) (m : mtype) (is_not : bool)
             (keys : list var) : option tres :=
    option_map (fun found =>
      match m with
      | MCount r =>
          let n := Z.of_nat (list_sum (map (fun l => header_count1 o (l_header l)) found)) in
          TBool (xorb (existsb (fun k => rel_number r (NInt n) (v_number L k)) keys) is_not) []
      | MList =>
          let values := fold_left (fun vs v =>
                          match v with
                          | [] => vs
                          | _ => if existsb (teqb v) vs then vs else vs ++ [v]
                          end) (flat_map (fun l => header_values (l_header l) o) found) [] in
          match values with
          | [] => TBool (xorb false is_not) []
          | _ => TListContains (map (v_text L) keys) values c
          end
      | _ =>
          match values_loop c m (flat_map (fun l => header_values (l_header l) o) found) keys [] with
          | CPanic => TPanic
          | CRes b caps => TBool (xorb b is_not) caps
          end
      end) (find_headers parts current names index anychild).

  (** test_header.rs 190-212 [parse_header_names] *)
  Definition parse_header_names (c : vctx) (names : list value) : list text :=
    flat_map (fun n => match hn_parse M (v_text L (eval_value L c n)) with Some h => [h] | None => [] end) names.

  (** test_exists.rs 12-35 [TestExists::exec]: parts in turn, until every name has
      been seen. *)
  Fixpoint exists_go (names : list (text * bool)) (ps : list (nat * part)) : bool :=
    match ps with
    | [] => false
    | (_, p) :: rest =>
        let names' := map (fun nb => (fst nb, snd nb || existsb (fun h => hn_eqb (h_name h) (fst nb)) (p_headers p))) names in
        if forallb snd names' then true else exists_go names' rest
    end.
  (** runtime/tests/test_exists.rs 14-37 [TestExists::exec]. *)
  Definition exists_test (parts : list part) (current : nat) (names : list text) (anychild is_not : bool)
    : option bool :=
    option_map (fun ps => xorb (exists_go (map (fun n => (n, false)) names) ps) is_not)
               (subparts parts current anychild).

  (** test_body.rs 22-223 [TestBody::exec], without the subject option (which is [subject_keys] of Run.v).
      [bt] is the text the body transform takes from a part (modelled in BodyText.v), [filter] the parsed
      content type filter of ':content'. *)
  Definition body_test (parts : list part) (current : nat) (filter_ : list ctfilter)
             (bt : part -> option text) (c : comparator) (m : mtype) (is_not : bool)
             (keys : list var) : option tres :=
    option_map (fun ps =>
      let ps := filter (passes filter_) ps in
      match m with
      | MCount r =>
          TBool (xorb (existsb (fun k => rel_number r (NInt (Z.of_nat (length ps))) (v_number L k)) keys) is_not) []
      | _ =>
          match values_loop c (match m with MMatches _ => MMatches 0 | MRegex _ => MRegex 0 | m => m end)
                  (flat_map (fun p => match bt p with Some t => [t] | None => [] end) ps) keys [] with
          | CPanic => TPanic
          | CRes b _ => TBool (xorb b is_not) []
          end
      end) (deep_parts parts current).

  (** test_size.rs 12-20 [TestSize::exec] *)
  Definition size_test (message_size : nat) (over : bool) (limit : nat) (is_not : bool) : bool :=
    xorb (if over then Nat.ltb limit message_size else Nat.ltb message_size limit) is_not.
End H.
