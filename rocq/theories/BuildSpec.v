(** Independent specification of what a message is: a tree of parts, each with its
    header fields and a body. *)
From Verif Require Import Base Lib Var Value Glob Comparator Message EditHeader Mime Build.

(** A part: its number, the bytes of its header fields in order, whether a blank
    line follows them, and its body. *)
Inductive tree :=
| Node (id : nat) (fields : list (list N)) (blank : bool) (body : content)
with content :=
| Leaf (bytes : list N)
| Multi (children : list (list N * tree)) (post : list N)
    (* the bytes before each child (preamble, boundary lines) and after the last *)
| Mixed (boundary : text) (children : list tree)
    (* a multipart written by the library *)
| Whole (t : tree) (tail : list N).
    (* an enclosed message *)

Definition delimiter (b : text) : list N :=
  match b with [] => [] | _ => crlf ++ utf8 (lit "--") ++ utf8 b ++ crlf end.
Definition closing (b : text) : list N :=
  match b with [] => [] | _ => crlf ++ utf8 (lit "--") ++ utf8 b ++ utf8 (lit "--") ++ crlf end.

(** The bytes of a message. *)
Fixpoint render (t : tree) : list N :=
  match t with
  | Node _ fields blank c =>
      concat fields ++ (if blank then crlf else []) ++
      match c with
      | Leaf b => b
      | Multi l post => flat_map (fun gt => fst gt ++ render (snd gt)) l ++ post
      | Mixed b l => flat_map (fun t => delimiter b ++ render t) l ++ closing b
      | Whole t tail => render t ++ tail
      end
  end.

(** The contract of mail_parser: the offsets it records tile the message.  Header
    fields follow each other from [k] to [e] ... *)
Inductive tiled (raw : list N) : nat -> list fheader -> list (list N) -> nat -> Prop :=
| t_nil : forall k, tiled raw k [] [] k
| t_cons : forall k h hs f fs e,
    fh_field h = k -> fh_field h < fh_start h <= fh_end h -> slice raw k (fh_end h) = Some f ->
    h_raw (fh_view h) = true -> h_bytes (fh_view h) = fh_end h - fh_field h ->
    tiled raw (fh_end h) hs fs e -> tiled raw k (h :: hs) (f :: fs) e.
(** ... then a blank line (CR LF), then the body; the parts of a multipart lie in
    its body, one behind the other. *)
Definition leaf (b : fbody) : Prop := forall l, b <> FMulti l.
Inductive laid (raw : list N) (parts : list fpart) : nat -> tree -> Prop :=
| l_leaf : forall id hs ct b enc oh ob oe fs e bytes,
    nth_error parts id = Some (FPart hs ct b enc oh ob oe) -> leaf b ->
    tiled raw oh hs fs e -> slice raw e ob = Some crlf -> slice raw ob oe = Some bytes ->
    laid raw parts id (Node id fs true (Leaf bytes))
| l_multi : forall id hs ct subs enc oh ob oe fs e l k post,
    nth_error parts id = Some (FPart hs ct (FMulti subs) enc oh ob oe) ->
    tiled raw oh hs fs e -> slice raw e ob = Some crlf ->
    laid_all raw parts ob subs l k -> slice raw k oe = Some post ->
    laid raw parts id (Node id fs true (Multi l post))
with laid_all (raw : list N) (parts : list fpart) : nat -> list nat -> list (list N * tree) -> nat -> Prop :=
| la_nil : forall k, laid_all raw parts k [] [] k
| la_cons : forall k i p g t subs l k',
    nth_error parts i = Some p -> slice raw k (fp_oh p) = Some g -> laid raw parts i t ->
    laid_all raw parts (fp_oe p) subs l k' -> laid_all raw parts k (i :: subs) ((g, t) :: l) k'.

(** A message as the script's host hands it over: [t] is its root part and [tail]
    what follows it. *)
Definition parsed (raw : list N) (parts : list fpart) (t : tree) (tail : list N) : Prop :=
  exists p, nth_error parts 0 = Some p /\ fp_oh p = 0 /\ laid raw parts 0 t /\ tail = skipn (fp_oe p) raw.

(** The message the library builds, whatever number of turns it takes. *)
Definition builds (st : fstate) (bytes : list N) : Prop :=
  exists n, forall fuel, n <= fuel -> build_message fuel (fs_raw st) (fs_parts st) = Built bytes.

(** The same tree with other header fields, or with some parts exchanged. *)
Fixpoint with_fields (f : nat -> list (list N)) (t : tree) : tree :=
  match t with
  | Node id _ blank c =>
      Node id (f id) blank
        (match c with
         | Multi l post => Multi (map (fun gt => (fst gt, with_fields f (snd gt))) l) post
         | Mixed b l => Mixed b (map (with_fields f) l)
         | c => c
         end)
  end.
Fixpoint exchange (g : nat -> option tree) (t : tree) : tree :=
  match t with
  | Node id fields blank c =>
      match g id with
      | Some t' => t'
      | None =>
          Node id fields blank
            (match c with
             | Multi l post => Multi (map (fun gt => (fst gt, exchange g (snd gt))) l) post
             | Mixed b l => Mixed b (map (exchange g) l)
             | c => c
             end)
      end
  end.
(** A header field given by name and value. *)
Definition field (n v : text) : list N := utf8 n ++ utf8 (lit ": ") ++ utf8 v ++ crlf.

(** The bytes of a header field of the edited message: those it had in the original
    message, or the name and value a script gave. *)
Definition written (raw : list N) (h : fheader) : list N :=
  if Nat.eqb (fh_end h) 0 then field (h_name (fh_view h)) (as_text (h_val (fh_view h)))
  else firstn (fh_end h - fh_field h) (skipn (fh_field h) raw).
Definition headers_at (st : fstate) (id : nat) : list fheader :=
  match nth_error (fs_parts st) id with Some p => fp_headers p | None => [] end.
(** The header [h] comes from the original message / was added by the script. *)
Definition original (h : fheader) : bool := negb (Nat.eqb (fh_end h) 0).
Inductive sublist {A} : list A -> list A -> Prop :=
| sub_nil : sublist [] []
| sub_skip : forall x l l', sublist l l' -> sublist l (x :: l')
| sub_keep : forall x l l', sublist l l' -> sublist (x :: l) (x :: l').

(** The header edits of EditHeader.run_edits on a message with offsets. *)
Fixpoint run_fedits (L : rustlib) (rx : text -> text -> option (list (option text))) (M : mailparser)
         (protected : list text) (max : nat) (es : list edit) (st : fstate) : option fstate :=
  match es with
  | [] => Some st
  | EAdd n v l p :: es' =>
      match fadd_header L M protected max n v l p st with
      | Some st' => run_fedits L rx M protected max es' st' | None => None end
  | EDelete n i a c m k p :: es' =>
      match fdelete_header L rx M protected n i a c m k p st with
      | Some st' => run_fedits L rx M protected max es' st' | None => None end
  end.

(** The numbers of the parts of a message (not of messages enclosed in it). *)
Fixpoint ids (t : tree) : list nat :=
  match t with
  | Node id _ _ c =>
      id :: (match c with
             | Multi l _ => flat_map (fun gt => ids (snd gt)) l
             | Mixed _ l => flat_map ids l
             | _ => []
             end)
  end.

(** A header field of the whole message after [replace]: kept, renamed or gone.
    [s] and [f]: the script gives a new Subject, a new From. *)
Definition written_as (raw : list N) (n : text) (h : fheader) : list N :=
  if Nat.eqb (fh_end h) 0 then field n (as_text (h_val (fh_view h)))
  else utf8 n ++ utf8 (lit ":") ++ firstn (fh_end h - fh_start h) (skipn (fh_start h) raw).
Definition after_replace (raw : list N) (s f : bool) (h : fheader) : list (list N) :=
  let is n := negb (fh_other h) && teqb_ic (h_name (fh_view h)) (lit n) in
  if is "Subject"%string then [if s then written_as raw (lit "Original-Subject") h else written raw h]
  else if is "From"%string then [if f then written_as raw (lit "Original-From") h else written raw h]
  else if is "To"%string || is "Cc"%string || is "Bcc"%string || is "Received"%string || is "Date"%string
  then [written raw h] else [].

(** A message after any number of edits: header edits, replacements of the whole
    message or of parts that have no subparts, enclosures and conversions. *)
Inductive history (L : rustlib) (rx : text -> text -> option (list (option text))) (M : mailparser) : fstate -> Prop :=
| h_start : forall st t tail,
    parsed (fs_raw st) (fs_parts st) t tail -> (forall i, i < length (fs_parts st) -> In i (ids t)) -> history L rx M st
| h_add : forall st prot max n v l id st',
    history L rx M st -> fadd_header L M prot max n v l id st = Some st' -> history L rx M st'
| h_delete : forall st prot n i a c m k id st',
    history L rx M st -> fdelete_header L rx M prot n i a c m k id st = Some st' -> history L rx M st'
| h_replace : forall st E s f b mime id st',
    history L rx M st -> (id = 0 \/ forall p, nth_error (fs_parts st) id = Some p -> leaf (fp_body p)) ->
    freplace E s f b mime id st = Some st' -> history L rx M st'
| h_enclose : forall st E hs s b st',
    history L rx M st -> fenclose L M E hs s b st = Some st' -> history L rx M st'
| h_convert : forall st E from to d st',
    history L rx M st -> fconvert E from to st = Some (d, st') -> history L rx M st'.

(** What [convert] makes of part [i]: nothing, or a new part. *)
Definition conversion_result (E : mimeenv) (cv : conversion) (parts : list fpart) (i : nat) : option tree :=
  let new ct t := Some (Node i [field (lit "Content-Type") (lit ct)] true (Leaf (utf8 t))) in
  match nth_error parts i with
  | Some (FPart _ ct body _ _ _ _) =>
      match cv, body with
      | CvHtmlToText, FHtml t => new "text/plain; charset=utf8"%string (me_h2t E t)
      | CvTextToHtml, FText t => new "text/html; charset=utf8"%string (me_t2h E t)
      | CvPlainToHtml, FText t =>
          match ct with
          | Some {| ct_subtype := Some s |} =>
              if teqb_ic s (lit "plain") then new "text/html; charset=utf8"%string (me_t2h E t) else None
          | _ => None
          end
      | _, _ => None
      end
  | None => None
  end.

(** The Content-Type the library gives to a text it was not told the type of. *)
Definition plain_ct : list N := field (lit "Content-Type") (lit "text/plain; charset=utf-8").
(** Part [id], and no other, is exchanged. *)
Definition swapped (id : nat) (new : tree) (j : nat) : option tree := if Nat.eqb j id then Some new else None.

(** The header fields of the whole message after [replace]: those that are kept,
    then those of the replacement. *)
Definition given_subject (s : option text) : bool := match s with Some _ => true | None => false end.
Definition root_fields (E : mimeenv) (raw : list N) (s f : option text) (mime : bool) (hs : list fheader) : list (list N) :=
  flat_map (after_replace raw (given_subject s) (given_subject f)) hs ++
  [field (lit "From") (match f with Some ((_ :: _) as f) => remove_crlf (me_max_header E) f | _ => me_from E end)] ++
  (match s with Some ((_ :: _) as s) => [field (lit "Subject") (remove_crlf (me_max_header E) s)] | _ => [] end) ++
  (if existsb (fun h => negb (fh_other h) && teqb_ic (h_name (fh_view h)) (lit "Date")) hs then []
   else [field (lit "Date") (me_date E)]) ++
  [field (lit "Message-ID") (me_msgid E)] ++
  (if mime then [] else [plain_ct]).

(** The header fields of the message [enclose] makes: name and value. *)
Definition enclosing_fields (L : rustlib) (M : mailparser) (E : mimeenv) (st : fstate) (headers : list text) (subject : option text)
  : list (text * text) :=
  let given := flat_map (enclose_given L M E) headers in
  let has n := existsb (fun g => hn_eqb (fst g) n) given in
  [(lit "Content-Type", lit "multipart/mixed; boundary=""" ++ me_boundary E ++ lit """");
   (lit "Subject", match subject with
                   | Some s => remove_crlf (me_max_header E) s
                   | None => match me_subject E (fview st) with Some s => s | None => [] end
                   end)] ++
  map snd given ++
  (if has (lit "From") then [] else [(lit "From", me_from E)]) ++
  (if has (lit "Date") then [] else [(lit "Date", me_date E)]) ++
  (if has (lit "Message-ID") then [] else [(lit "Message-ID", me_msgid E)]).
