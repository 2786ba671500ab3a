(** Model of the actions that rewrite the message: src/runtime/actions/
    action_mime.rs (replace, enclose, extracttext) and action_convert.rs. *)
From Verif Require Import Base Lib Address Var Value SetVar Flags Comparator Message EditHeader.

(** action_mime.rs 26-324: What these actions read besides the message: settings of the runtime, the
    user's From field (action_notify.rs [user_from_field]), the clock and random generators, and
    mail_parser's HTML converters.  [me_psize] is the number of bytes accounted for the old version of a
    part ([offset_end - offset_header], or the body length of a part already replaced). *)
Record mimeenv := {
  me_psize : part -> nat;
  me_max_header : nat;
  me_protected : list text;
  me_from : text;
  me_date : text;
  me_msgid : text;
  me_boundary : text;
  me_subject : mstate -> option text;      (* ctx.message.subject() *)
  me_h2t : text -> text;                   (* html_to_text *)
  me_t2h : text -> text                    (* text_to_html *)
}.

(** [sort_unstable_by_key(Reverse)] (action_mime.rs 30): decreasing. *)
Fixpoint insert_desc (n : nat) (l : list nat) : list nat :=
  match l with
  | [] => [n]
  | m :: l' => if Nat.leb m n then n :: l else m :: insert_desc n l'
  end.
(** action_mime.rs 30: [sort_unstable_by_key(Reverse)]. *)
Definition sort_desc (l : list nat) : list nat := fold_right insert_desc [] l.
(** action_mime.rs 31-33: [Vec::remove] for each of the part numbers. *)
Fixpoint remove_all {A} (ids : list nat) (l : list A) : option (list A) :=
  match ids with
  | [] => Some l
  | i :: ids' => match remove_at i l with Some l' => remove_all ids' l' | None => None end
  end.

(** action_mime.rs 56-85: the headers of the whole message that survive [replace],
    the bytes they are accounted for, and whether a Date header is missing.
    Simplification: the bytes of a renamed header are its old bytes less the name
    and the colon, and a header that an earlier [replace] or [enclose] put there is looked for like an
    original one (in the code its name is of the kind [Other], which matches none; [Build.fkept] has this
    distinction, and [PropertiesBuildRun.v] relates the two). *)
Definition rename (n : text) (h : header) : header :=
  {| h_name := n; h_raw := h_raw h; h_val := h_val h; h_plain := h_plain h;
     h_bytes := h_bytes h - (blen (h_name h) + 1) |}.
(** action_mime.rs 56-85: the headers that survive, their size, and whether a Date
    has to be added. *)
Fixpoint kept_headers (has_subject has_from : bool) (hs : list header) : list header * nat * bool :=
  match hs with
  | [] => ([], 0, true)
  | h :: hs' =>
      let '(r, n, d) := kept_headers has_subject has_from hs' in
      if hn_eqb (h_name h) (lit "Subject") then
        if has_subject then (rename (lit "Original-Subject") h :: r, h_bytes h + 9 + n, d)
        else (h :: r, h_bytes h + n, d)
      else if hn_eqb (h_name h) (lit "From") then
        if has_from then (rename (lit "Original-From") h :: r, h_bytes h + 9 + n, d)
        else (h :: r, h_bytes h + n, d)
      else if existsb (hn_eqb (h_name h)) (map lit ["To"; "Cc"; "Bcc"; "Received"]%string) then
        (h :: r, h_bytes h + n, d)
      else if hn_eqb (h_name h) (lit "Date") then (h :: r, h_bytes h + n, false)
      else (r, n, d)
  end.

(** Several [insert_header]s at the bottom of parts (action_editheader.rs
    159-184). *)
Fixpoint insert_all (l : list (nat * (text * text))) (st : mstate) : option mstate :=
  match l with
  | [] => Some st
  | (p, (n, v)) :: l' =>
      match insert_header st p n v true with Some st' => insert_all l' st' | None => None end
  end.

Section R.
  Variable L : rustlib.
  Variable M : mailparser.
  Variable E : mimeenv.

  (** action_mime.rs 26-165 [Replace::exec].  The arguments are evaluated; [None]
      is an index or subtraction panic. *)
  Definition replace_inserts (subject from : option text) (mime : bool) (part : nat) (add_date : bool)
    : list (nat * (text * text)) :=
    (if Nat.eqb part 0 then
       [(0, (lit "From", match from with
                         | Some ((_ :: _) as f) => remove_crlf (me_max_header E) f
                         | _ => me_from E
                         end))] ++
       (match subject with
        | Some ((_ :: _) as s) => [(0, (lit "Subject", remove_crlf (me_max_header E) s))]
        | _ => []
        end) ++
       (if add_date then [(0, (lit "Date", me_date E))] else []) ++
       [(0, (lit "Message-ID", me_msgid E))]
     else []) ++
    (if mime then [] else [(part, (lit "Content-Type", lit "text/plain; charset=utf-8"))]).

  (** action_mime.rs 27-164 [Replace::exec]. *)
  Definition replace (subject from : option text) (body : text) (mime : bool) (part : nat) (st : mstate)
    : option mstate :=
    match nested_ids (ms_parts st) part false with
    | None => None
    | Some ids =>
        match remove_all (sort_desc ids) (ms_parts st) with
        | None => None
        | Some ps =>
            match nth_error ps part with
            | None => None
            | Some p =>
                if Nat.ltb (ms_size st + blen body) (me_psize E p) then None
                else
                  let '(hs, n, add_date) :=
                    if Nat.eqb part 0
                    then kept_headers (match subject with Some _ => true | None => false end)
                                      (match from with Some _ => true | None => false end) (p_headers p)
                    else ([], 0, true) in
                  match update_nth part (fun _ => Some (Part hs None (BText body))) ps with
                  | None => None
                  | Some ps' =>
                      insert_all (replace_inserts subject from mime part add_date)
                        {| ms_parts := ps'; ms_changed := true;
                           ms_size := ms_size st + blen body - me_psize E p + n |}
                  end
            end
        end
    end.

  (** Rust core: [str::split_once(':')] *)
  Fixpoint split_colon1 (s : text) : option (text * text) :=
    match s with
    | [] => None
    | c :: s' => if N.eqb c 58 then Some ([], s')
                 else option_map (fun p => (c :: fst p, snd p)) (split_colon1 s')
    end.
  (** action_mime.rs 250-288: the headers given with [:headers], as they are
      inserted, with the parsed name. *)
  Definition enclose_given (h : text) : list (text * (text * text)) :=
    match split_colon1 h with
    | None => []
    | Some (n, v) =>
        let n := trim (chr_is_ws L) n in
        let v := trim (chr_is_ws L) v in
        match v, hn_parse M n with
        | _ :: _, Some hn => if existsb (hn_eqb hn) (me_protected E) then []
                             else [(hn, (n, remove_crlf (me_max_header E) v))]
        | _, _ => []
        end
    end.

  (** action_mime.rs 167-325 [Enclose::exec]; afterwards [ctx.part] is 0. *)
  Definition enclose (headers : list text) (subject : option text) (body : text) (st : mstate)
    : option mstate :=
    let s := match subject with
             | Some s => remove_crlf (me_max_header E) s
             | None => match me_subject E st with Some s => s | None => [] end
             end in
    let given := flat_map enclose_given headers in
    let has n := existsb (fun g => hn_eqb (fst g) n) given in
    insert_all
      ([(0, (lit "Content-Type", lit "multipart/mixed; boundary=""" ++ me_boundary E ++ lit """"));
        (0, (lit "Subject", s));
        (1, (lit "Content-Type", lit "text/plain; charset=utf-8"));
        (2, (lit "Content-Type", lit "message/rfc822"))] ++
       map (fun g => (0, snd g)) given ++
       (if has (lit "From") then [] else [(0, (lit "From", me_from E))]) ++
       (if has (lit "Date") then [] else [(0, (lit "Date", me_date E))]) ++
       (if has (lit "Message-ID") then [] else [(0, (lit "Message-ID", me_msgid E))]))
      {| ms_parts := [Part [] None (BMulti [1; 2]); Part [] None (BText body);
                      Part [] None (BMessage (ms_parts st))];
         ms_changed := true;
         ms_size := ms_size st + (blen (me_boundary E) + 6) * 3 + blen body + 2 |}.

  (** action_convert.rs 24-101 [Convert::exec]: whether something was converted,
      and the new message; [None] is a subtraction panic. *)
  Inductive conversion := CvTextToHtml | CvPlainToHtml | CvHtmlToText.
  (** action_convert.rs 35-50: which conversion the media types name. *)
  Definition conversion_of (from to : text) : option conversion :=
    if teqb_ic from to then None
    else if (teqb_ic from (lit "text") || starts_with from (lit "text/")) && teqb_ic to (lit "text/html")
    then Some (if teqb_ic from (lit "text") then CvPlainToHtml else CvTextToHtml)
    else if teqb_ic from (lit "text/html") && teqb_ic to (lit "text/plain") then Some CvHtmlToText
    else None.
  (** lines 56-80: the new body and content type of a part, if it is converted. *)
  Definition convert_body (cv : conversion) (p : part) : option (pbody * text) :=
    match p_body p, cv with
    | BHtml t, CvHtmlToText => Some (BText (me_h2t E t), lit "text/plain; charset=utf8")
    | BText t, CvTextToHtml => Some (BHtml (me_t2h E t), lit "text/html; charset=utf8")
    | BText t, CvPlainToHtml =>
        match p_ct p with
        | Some ct => match ct_subtype ct with
                     | Some s => if teqb_ic s (lit "plain")
                                 then Some (BHtml (me_t2h E t), lit "text/html; charset=utf8") else None
                     | None => None
                     end
        | None => None
        end
    | _, _ => None
    end.
  (** action_convert.rs 52-95: the length of a body. *)
  Definition body_len (b : pbody) : nat :=
    match b with BText t | BHtml t | BBinary t => blen t | _ => 0 end.
  (** action_convert.rs 52-95: the loop over the parts. *)
  Fixpoint convert_parts (cv : conversion) (ps : list part) (size : nat) (did : bool)
    : option (list part * nat * bool) :=
    match ps with
    | [] => Some ([], size, did)
    | p :: ps' =>
        match convert_body cv p with
        | None => option_map (fun r => (p :: fst (fst r), snd (fst r), snd r)) (convert_parts cv ps' size did)
        | Some (b, ct) =>
            let more := size + blen ct + body_len b + 16 in
            if Nat.ltb more (me_psize E p) then None
            else option_map (fun r => (Part [new_header (lit "Content-Type") ct] None b :: fst (fst r),
                                       snd (fst r), snd r))
                   (convert_parts cv ps' (more - me_psize E p) true)
        end
    end.
  (** action_convert.rs 24-101 [Convert::exec]. *)
  Definition convert (from to : text) (st : mstate) : option (bool * mstate) :=
    match conversion_of from to with
    | None => Some (false, st)
    | Some cv =>
        match convert_parts cv (ms_parts st) (ms_size st) false with
        | None => None
        | Some (ps, n, did) =>
            Some (did, {| ms_parts := ps; ms_changed := ms_changed st || did; ms_size := n |})
        end
    end.

  (** action_mime.rs 327-373 [ExtractText::exec]: the text taken from the current
      part; nothing outside of a foreverypart loop ([inside] is false). *)
  Definition extract_text (inside : bool) (first : option nat) (max : nat) (c : vctx) (mods : list modifier)
             (part : nat) (st : mstate) : text :=
    if inside then
      let cut t := match first with Some n => firstn n t | None => t end in
      let v := match nth_error (ms_parts st) part with
               | Some p => match p_body p with
                           | BText t => cut t
                           | BHtml t => cut (me_h2t E t)
                           | _ => []
                           end
               | None => []
               end in
      match v with
      | [] => []
      | _ => fold_left (fun v m => mod_apply L max c m v) mods v
      end
    else [].
End R.
