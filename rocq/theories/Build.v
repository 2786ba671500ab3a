(** Model of src/runtime/actions/action_mime.rs 376-566 [build_message]: the bytes
    of the message after a script has edited it.  Here the message is modelled
    with the offsets into the original bytes that mail_parser records; [Message.part]
    is what the tests see of it ([view]). *)
From Verif Require Import Base Lib Address Var Value SetVar Flags Comparator Message EditHeader Mime.

(** action_mime.rs 427-453 (no lines of /repo define it): mail_parser's Header with its offsets.
    [fh_other]: its name is a [HeaderName::Other], the form action_mime.rs gives to the headers it inserts
    itself; such a name differs from the one mail_parser knows ([HeaderName::Subject] and so on).
    Simplification: only [own_ct] and [fkept] below make this difference; the header tests and deleteheader
    compare names as texts. *)
Record fheader := {
  fh_view : header;
  fh_other : bool;
  fh_field : nat;       (* offset_field *)
  fh_start : nat;       (* offset_start *)
  fh_end : nat          (* offset_end; 0 for a header that is not in the original *)
}.

(** action_mime.rs 407-521 (no lines of /repo define it): mail_parser's MessagePart: headers, content
    type, body, whether [encoding] is other than [Encoding::None], [offset_header], [offset_body],
    [offset_end]. *)
Inductive fpart :=
| FPart (headers : list fheader) (ct : option ctype) (body : fbody) (enc : bool) (oh ob oe : nat)
with fbody :=
| FText (t : text)
| FHtml (t : text)
| FBinary (bytes : text)
| FMulti (subparts : list nat)
| FMessage (raw : list N) (parts : list fpart).

(** The field [headers] of a part (action_mime.rs 427). *)
Definition fp_headers (p : fpart) := match p with FPart h _ _ _ _ _ _ => h end.
(** The field [body] (action_mime.rs 463, 479). *)
Definition fp_body (p : fpart) := match p with FPart _ _ b _ _ _ _ => b end.
(** Whether the field [encoding] is not [Encoding::None] (action_mime.rs 455). *)
Definition fp_enc (p : fpart) := match p with FPart _ _ _ e _ _ _ => e end.
(** The field [offset_header] (action_mime.rs 414). *)
Definition fp_oh (p : fpart) := match p with FPart _ _ _ _ n _ _ => n end.
(** The field [offset_body] (action_mime.rs 455, 460). *)
Definition fp_ob (p : fpart) := match p with FPart _ _ _ _ _ n _ => n end.
(** The field [offset_end] (action_mime.rs 417, 475). *)
Definition fp_oe (p : fpart) := match p with FPart _ _ _ _ _ _ n => n end.
(** An assignment to [headers] (action_editheader.rs 130-133, 160-184). *)
Definition set_fheaders (h : list fheader) (p : fpart) : fpart :=
  match p with FPart _ c b e i j k => FPart h c b e i j k end.

(** No counterpart (the two models of a message compared): What the tests see of a part. *)
Fixpoint view (p : fpart) : part :=
  match p with
  | FPart hs ct b _ _ _ _ =>
      Part (map fh_view hs) ct
        (match b with
         | FText t => BText t
         | FHtml t => BHtml t
         | FBinary t => BBinary t
         | FMulti l => BMulti l
         | FMessage _ ps => BMessage (map view ps)
         end)
  end.

(** action_mime.rs 413-414, 431-432, 474-475 (Rust core library): [&raw[a..b]]; [None] is the index
    panic. *)
Definition slice (raw : list N) (a b : nat) : option (list N) :=
  if Nat.leb a b && Nat.leb b (length raw) then Some (firstn (b - a) (skipn a raw)) else None.
(** action_mime.rs 451, 457. *)
Definition crlf : list N := [13; 10]%N.

(** action_mime.rs 428-455: the bytes of one header field. *)
Definition as_text (v : hvalue) : text := match v with HText t => t | _ => [] end.
(** action_mime.rs 428-452: the bytes of one header field. *)
Definition field_bytes (raw : list N) (h : fheader) : option (list N) :=
  if Nat.eqb (fh_end h) 0 then
    Some (utf8 (h_name (fh_view h)) ++ [58; 32]%N ++ utf8 (as_text (h_val (fh_view h))) ++ crlf)
  else if Nat.eqb (fh_field h) (fh_start h) then
    option_map (fun b => utf8 (h_name (fh_view h)) ++ [58%N] ++ b) (slice raw (fh_start h) (fh_end h))
  else slice raw (fh_field h) (fh_end h).
(** action_mime.rs 427-453: of all header fields of a part. *)
Fixpoint fields_bytes (raw : list N) (hs : list fheader) : option (list N) :=
  match hs with
  | [] => Some []
  | h :: hs' => match field_bytes raw h, fields_bytes raw hs' with
                | Some a, Some b => Some (a ++ b)
                | _, _ => None
                end
  end.

(** action_mime.rs 515-518: [part.contents()] of a part that has no body in the original. *)
Definition contents (b : fbody) : list N :=
  match b with
  | FText t | FHtml t => utf8 t
  | FBinary t => t
  | FMulti _ => []
  | FMessage raw _ => raw
  end.

(** action_mime.rs 493-507: the boundary named by the last inserted Content-Type header. *)
Fixpoint split_at (sep : text) (s : text) : option (text * text) :=
  if starts_with s sep then Some ([], skipn (length sep) s)
  else match s with [] => None | c :: s' => option_map (fun r => (c :: fst r, snd r)) (split_at sep s') end.
(** action_mime.rs 444-446: the last Content-Type field that was inserted. *)
Definition own_ct (hs : list fheader) : option fheader :=
  last (map Some (filter (fun h => Nat.eqb (fh_end h) 0 && (fh_other h && hn_eqb (h_name (fh_view h)) (lit "Content-Type"))) hs)) None.
(** action_mime.rs 492-505. *)
Definition boundary_of (hs : list fheader) : text :=
  match own_ct hs with
  | Some h =>
      match h_val (fh_view h) with
      | HText v =>
          match split_at (lit "boundary=""") v with
          | Some (_, v') => match split_at (lit """") v' with Some (b, _) => b | None => lit "invalid-boundary" end
          | None => lit "invalid-boundary"
          end
      | _ => lit "invalid-boundary"
      end
  | None => lit "invalid-boundary"
  end.

(** action_mime.rs 376-380 [StackItem]; a message is its raw bytes and its parts. *)
Inductive sitem := SiMessage (raw : list N) (parts : list fpart) | SiBoundary (b : text) | SiNone.
(** action_mime.rs 418. *)
Definition top_is_message (stack : list (sitem * nat * list nat)) : bool :=
  match stack with (SiMessage _ _, _, _) :: _ => true | _ => false end.
(** action_mime.rs 398: [Vec<u8>]; a panic, or the model's fuel is used up (excluded by the theorems).
    *)
Inductive built := Built (bytes : list N) | BuildPanic | BuildFuel.

(** action_mime.rs 411-423: what precedes the header fields of a part. *)
Definition lead (raw : list N) (boundary : text) (on_message : bool) (last : nat) (p : fpart) : option (list N) :=
  if Nat.ltb 0 last then slice raw last (fp_oh p)
  else if negb (match boundary with [] => true | _ => false end) && Nat.eqb (fp_oe p) 0 && negb on_message
  then Some (crlf ++ [45; 45]%N ++ utf8 boundary ++ crlf)
  else Some [].

(** action_mime.rs 527-534, 559-563: [raw.get(a..)] when [last_offset > 0]. *)
Definition rest_of (raw : list N) (last : nat) : list N := if Nat.ltb 0 last then skipn last raw else [].

(** action_mime.rs 398-566 [build_message]: one turn handles the next part of [iter], or
    goes back to the enclosing part.  Simplification: [last_offset] and the offsets
    are [nat] rather than u32. *)
Fixpoint build_go (fuel : nat) (raw : list N) (parts : list fpart) (boundary : text) (iter : list nat)
         (stack : list (sitem * nat * list nat)) (last : nat) (out : list N) : built :=
  match fuel with
  | 0 => BuildFuel
  | S f =>
      match (match iter with [] => None | i :: _ => nth_error parts i end) with
      | Some p =>
          let iter' := tl iter in
          match lead raw boundary (top_is_message stack) last p, fields_bytes raw (fp_headers p) with
          | Some a, Some b =>
              let out := out ++ a ++ b ++ (if negb (Nat.eqb (fp_ob p) 0) || fp_enc p then crlf else []) in
              if negb (Nat.eqb (fp_ob p) 0) then
                match fp_body p with
                | FMulti subs => build_go f raw parts boundary subs ((SiNone, fp_oe p, iter') :: stack) (fp_ob p) out
                | _ => match slice raw (fp_ob p) (fp_oe p) with
                       | Some c => build_go f raw parts boundary iter' stack (fp_oe p) (out ++ c)
                       | None => BuildPanic
                       end
                end
              else
                match fp_body p with
                | FMessage raw' parts' =>
                    build_go f raw' parts' boundary [0] ((SiMessage raw parts, fp_oe p, iter') :: stack) last out
                | FMulti subs =>
                    build_go f raw parts (boundary_of (fp_headers p)) subs
                      ((SiBoundary boundary, fp_oe p, iter') :: stack) last out
                | b => build_go f raw parts boundary iter' stack (fp_oe p) (out ++ contents b)
                end
          | _, _ => BuildPanic
          end
      | None =>
          match stack with
          | [] => Built (out ++ rest_of raw last)
          | (SiMessage raw' parts', _, iter') :: stack' =>
              build_go f raw' parts' boundary iter' stack' 0 (out ++ rest_of raw last)
          | (SiBoundary b', _, iter') :: stack' =>
              build_go f raw parts b' iter' stack' last
                (out ++ (match boundary with
                         | [] => []
                         | _ => crlf ++ [45; 45]%N ++ utf8 boundary ++ [45; 45]%N ++ crlf
                         end))
          | (SiNone, oe, iter') :: stack' =>
              match slice raw last oe with
              | Some c => build_go f raw parts boundary iter' stack' oe (out ++ c)
              | None => BuildPanic
              end
          end
      end
  end.
(** action_mime.rs 398-566 [build_message]. *)
Definition build_message (fuel : nat) (raw : list N) (parts : list fpart) : built :=
  build_go fuel raw parts [] [0] [] 0 [].

(** lib.rs 97-138 [Context]: [message], [has_changes], [message_size]. *** The editing actions on this
    message.  What they read of it is [view]; lines cited at the definitions of the same names in
    EditHeader.v and Mime.v. *)
Record fstate := {
  fs_raw : list N;
  fs_parts : list fpart;
  fs_changed : bool;
  fs_size : nat
}.
(** No counterpart (the two models of a message compared): what the tests see. *)
Definition fview (st : fstate) : mstate :=
  {| ms_parts := map view (fs_parts st); ms_changed := fs_changed st; ms_size := fs_size st |}.

(** action_editheader.rs 170-176; [other] says the name is given as a
    [HeaderName::Other]. *)
Definition new_fheader (other : bool) (name value : text) : fheader :=
  {| fh_view := new_header name value; fh_other := other; fh_field := 0; fh_start := 0; fh_end := 0 |}.
(** action_editheader.rs 159-184 [insert_header]. *)
Definition finsert (other : bool) (st : fstate) (part_id : nat) (name value : text) (last : bool) : option fstate :=
  option_map (fun ps => {| fs_raw := fs_raw st; fs_parts := ps; fs_changed := fs_changed st;
                           fs_size := fs_size st + (blen name + blen value + 4) |})
    (update_nth part_id
       (fun p => Some (set_fheaders (if last then fp_headers p ++ [new_fheader other name value]
                                     else new_fheader other name value :: fp_headers p) p))
       (fs_parts st)).
(** lib.rs 97-138 [Context]: [has_changes = true]. *)
Definition fchange (st : fstate) : fstate :=
  {| fs_raw := fs_raw st; fs_parts := fs_parts st; fs_changed := true; fs_size := fs_size st |}.
(** action_editheader.rs 129-134. *)
Definition fremove_marked (ps : list fpart) (marks : list (nat * nat)) : option (list fpart) :=
  fold_right (fun m acc =>
    match acc with
    | None => None
    | Some ps => update_nth (fst m)
                   (fun p => option_map (fun hs => set_fheaders hs p) (remove_at (snd m) (fp_headers p))) ps
    end) (Some ps) marks.

Section F.
  Variable L : rustlib.
  Variable rx : text -> text -> option (list (option text)).
  Variable M : mailparser.
  Variable E : mimeenv.

  (** action_editheader.rs 22-51 [AddHeader::exec]. *)
  Definition fadd_header (protected : list text) (max_header_size : nat) (name value : text) (last : bool)
             (part_id : nat) (st : fstate) : option fstate :=
    let clean := filter (fun c => chr_is_alnum L c || N.eqb c 45) name in
    match clean with
    | [] => Some st
    | _ =>
        match hn_parse M clean with
        | None => Some st
        | Some hn =>
            if existsb (hn_eqb hn) protected then Some st
            else finsert false (fchange st) part_id hn (remove_crlf max_header_size value) last
        end
    end.

  (** action_editheader.rs 53-137 [DeleteHeader::exec]. *)
  Definition fdelete_header (protected : list text) (name : text) (index : option Z) (anychild : bool)
             (c : comparator) (m : mtype) (patterns : list var) (part_id : nat) (st : fstate) : option fstate :=
    match hn_parse M name with
    | None => Some st
    | Some hn =>
        if existsb (hn_eqb hn) protected then Some st
        else
          match find_headers (map view (fs_parts st)) part_id [hn] index anychild with
          | None => None
          | Some found =>
              match to_delete L rx M c m patterns found with
              | None => None
              | Some marked =>
                  match fremove_marked (fs_parts st) (map (fun x => (l_part x, l_pos x)) marked) with
                  | None => None
                  | Some ps =>
                      let bytes := list_sum (map (fun x => header_size (l_header x)) marked) in
                      if Nat.ltb (fs_size st) bytes then None
                      else Some {| fs_raw := fs_raw st; fs_parts := ps;
                                   fs_changed := (match marked with [] => fs_changed st | _ => true end);
                                   fs_size := fs_size st - bytes |}
                  end
              end
          end
    end.

  (** Bytes accounted for the old version of a part (action_mime.rs 43-48,
      action_convert.rs 84-89). *)
  Definition old_size (p : fpart) : nat :=
    if negb (Nat.eqb (fp_ob p) 0) then fp_oe p - fp_oh p
    else match fp_body p with
         | FText t | FHtml t => blen t
         | FBinary t => length t
         | FMulti _ => 0
         | FMessage raw _ => length raw
         end.

  (** action_mime.rs 56-85; a renamed header starts where its value starts, and is
      still an original one. *)
  Definition frename (n : text) (h : fheader) : fheader :=
    {| fh_view := rename n (fh_view h); fh_other := true;
       fh_field := fh_start h; fh_start := fh_start h; fh_end := fh_end h |}.
  (** action_mime.rs 56-85: the headers that survive, their size, and whether a Date has to be added. *)
  Fixpoint fkept (has_subject has_from : bool) (hs : list fheader) : list fheader * nat * bool :=
    match hs with
    | [] => ([], 0, true)
    | h :: hs' =>
        let '(r, n, d) := fkept has_subject has_from hs' in
        let name := h_name (fh_view h) in
        let is n := negb (fh_other h) && hn_eqb name n in
        let size := fh_end h - fh_field h in
        if is (lit "Subject") then
          if has_subject then (frename (lit "Original-Subject") h :: r, size + 9 + n, d) else (h :: r, size + n, d)
        else if is (lit "From") then
          if has_from then (frename (lit "Original-From") h :: r, size + 9 + n, d) else (h :: r, size + n, d)
        else if existsb is (map lit ["To"; "Cc"; "Bcc"; "Received"]%string) then (h :: r, size + n, d)
        else if is (lit "Date") then (h :: r, size + n, false)
        else (r, n, d)
    end.

  (** action_mime.rs 87-164: The headers inserted below are named by [HeaderName::Other]. *)
  Fixpoint finsert_all (l : list (nat * (text * text))) (st : fstate) : option fstate :=
    match l with
    | [] => Some st
    | (p, (n, v)) :: l' =>
        match finsert true st p n v true with
        | Some st' => finsert_all l' st'
        | None => None
        end
    end.

  (** action_mime.rs 27-164 [Replace::exec]. *)
  Definition freplace (subject from : option text) (body : text) (mime : bool) (part : nat) (st : fstate)
    : option fstate :=
    match nested_ids (map view (fs_parts st)) part false with
    | None => None
    | Some ids =>
        match remove_all (sort_desc ids) (fs_parts st) with
        | None => None
        | Some ps =>
            match nth_error ps part with
            | None => None
            | Some p =>
                if Nat.ltb (fs_size st + blen body) (old_size p) then None
                else
                  let '(hs, n, add_date) :=
                    if Nat.eqb part 0
                    then fkept (match subject with Some _ => true | None => false end)
                               (match from with Some _ => true | None => false end) (fp_headers p)
                    else ([], 0, true) in
                  match update_nth part (fun p => Some (FPart hs None (FText body) (negb mime) (fp_oh p) 0 (fp_oe p))) ps with
                  | None => None
                  | Some ps' =>
                      finsert_all (replace_inserts E subject from mime part add_date)
                        {| fs_raw := fs_raw st; fs_parts := ps'; fs_changed := true;
                           fs_size := fs_size st + blen body - old_size p + n |}
                  end
            end
        end
    end.

  (** action_mime.rs 168-323 [Enclose::exec]. *)
  Definition fenclose (headers : list text) (subject : option text) (body : text) (st : fstate) : option fstate :=
    let s := match subject with
             | Some s => remove_crlf (me_max_header E) s
             | None => match me_subject E (fview st) with Some s => s | None => [] end
             end in
    let given := flat_map (enclose_given L M E) headers in
    let has n := existsb (fun g => hn_eqb (fst g) n) given in
    finsert_all
      ([(0, (lit "Content-Type", lit "multipart/mixed; boundary=""" ++ me_boundary E ++ lit """"));
        (0, (lit "Subject", s));
        (1, (lit "Content-Type", lit "text/plain; charset=utf-8"));
        (2, (lit "Content-Type", lit "message/rfc822"))] ++
       map (fun g => (0, snd g)) given ++
       (if has (lit "From") then [] else [(0, (lit "From", me_from E))]) ++
       (if has (lit "Date") then [] else [(0, (lit "Date", me_date E))]) ++
       (if has (lit "Message-ID") then [] else [(0, (lit "Message-ID", me_msgid E))]))
      {| fs_raw := [];
         fs_parts := [FPart [] None (FMulti [1; 2]) false 0 0 0; FPart [] None (FText body) true 0 0 0;
                      FPart [] None (FMessage (fs_raw st) (fs_parts st)) true 0 0 0];
         fs_changed := true;
         fs_size := fs_size st + (blen (me_boundary E) + 6) * 3 + blen body + 2 |}.

  (** action_convert.rs 24-101 [Convert::exec]. *)
  Definition fconvert_body (cv : conversion) (p : fpart) : option (fbody * text) :=
    match convert_body E cv (view p) with
    | Some (BText t, ct) => Some (FText t, ct)
    | Some (BHtml t, ct) => Some (FHtml t, ct)
    | _ => None
    end.
  (** action_convert.rs 24-101: the length of the body. *)
  Definition fbody_len (b : fbody) : nat :=
    match b with FText t | FHtml t => blen t | FBinary t => length t | _ => 0 end.
  (** action_convert.rs 24-101: the loop over the parts. *)
  Fixpoint fconvert_parts (cv : conversion) (ps : list fpart) (size : nat) (did : bool)
    : option (list fpart * nat * bool) :=
    match ps with
    | [] => Some ([], size, did)
    | p :: ps' =>
        match fconvert_body cv p with
        | None => option_map (fun r => (p :: fst (fst r), snd (fst r), snd r)) (fconvert_parts cv ps' size did)
        | Some (b, ct) =>
            let more := size + blen ct + fbody_len b + 16 in
            if Nat.ltb more (old_size p) then None
            else option_map (fun r => (FPart [new_fheader true (lit "Content-Type") ct] None b true
                                             (fp_oh p) 0 (fp_oe p) :: fst (fst r),
                                       snd (fst r), snd r))
                   (fconvert_parts cv ps' (more - old_size p) true)
        end
    end.
  (** action_convert.rs 24-101 [Convert::exec]. *)
  Definition fconvert (from to : text) (st : fstate) : option (bool * fstate) :=
    match conversion_of from to with
    | None => Some (false, st)
    | Some cv =>
        match fconvert_parts cv (fs_parts st) (fs_size st) false with
        | None => None
        | Some (ps, n, did) =>
            Some (did, {| fs_raw := fs_raw st; fs_parts := ps; fs_changed := fs_changed st || did; fs_size := n |})
        end
    end.
End F.
