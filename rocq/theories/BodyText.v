(** Model of the body transforms, src/runtime/tests/test_body.rs 96-187: the text
    that a body test searches in one part, and the parts visited with the bytes
    of the message each belongs to (src/runtime/tests/mime.rs 60-140).  The parts
    are those of [Build.v]: with their offsets into the bytes. *)
From Verif Require Import Base Lib Utf8 Address Var Value SetVar Flags Comparator Message EditHeader Mime Sieve Build.

(** test_body.rs 100-107, 117-124, 142-149, 159-166 (Rust core): [raw.get(a..b).unwrap_or(b"")]. *)
Definition get_range (raw : list N) (a b : nat) : list N :=
  match slice raw a b with Some l => l | None => [] end.
(** test_body.rs 116-126, 178 (Rust core): [std::str::from_utf8(b).unwrap_or("")]. *)
Definition from_utf8 (b : list N) : text := match utf8_strict b with Some t => t | None => [] end.
(** test_body.rs 133 (Rust core): [str::rsplit_once]. *)
Fixpoint rsplit_at (sep : text) (s : text) : option (text * text) :=
  match (match s with [] => None | _ :: s' => rsplit_at sep s' end), s with
  | Some r, c :: _ => Some (c :: fst r, snd r)
  | _, _ => if starts_with s sep then Some ([], skipn (length sep) s) else None
  end.
(** test_body.rs 114 (mail_parser): [ContentType::attribute]. *)
Definition ct_attribute (name : text) (ct : ctype) : option text :=
  match ct_attrs ct with
  | Some l => option_map snd (find (fun a => teqb (fst a) name) l)
  | None => None
  end.
(** [MessagePart::content_type] (test_body.rs 113-114, 172). *)
Definition fp_ct (p : fpart) := match p with FPart _ c _ _ _ _ _ => c end.

(** test_body.rs 113-138: what precedes the first and follows the last boundary. *)
Definition around (b : text) (body : text) : text :=
  let sep := (10%N :: lit "--") ++ b in
  match split_at sep body with
  | Some (prologue, rest) =>
      prologue ++ match rsplit_at (sep ++ lit "--") rest with Some (_, epilogue) => epilogue | None => [] end
  | None => []
  end.

(** test_body.rs 171-175. *)
Definition is_xml (p : fpart) : bool :=
  match fp_ct p with
  | Some ct => teqb_ic (ct_type ct) (lit "application") &&
               match ct_subtype ct with Some st => tcontains st (lit "xml") | None => false end
  | None => false
  end.

Section B.
  (** [html_to_text] of mail_parser. *)
  Variable h2t : text -> text.
  (** test_body.rs 97-187: the text searched in [p], a part of the message with the bytes [raw]; [None]:
      the part is not searched. *)
  Definition body_text (bt : bodytransform) (raw : list N) (p : fpart) : option text :=
    match bt, fp_body p with
    | BtContent _, FMessage _ parts =>
        match parts with
        | q :: _ => Some (utf8_lossy (get_range raw (fp_oh q) (fp_ob q)))
        | [] => None
        end
    | BtContent _, FMulti _ =>
        match match fp_ct p with Some ct => ct_attribute (lit "boundary") ct | None => None end with
        | Some b => Some (around b (from_utf8 (get_range raw (fp_ob p) (fp_oe p))))
        | None => Some (utf8_lossy (get_range raw (fp_ob p) (fp_oe p)))
        end
    | BtRaw, b =>
        match b, fp_ob p with
        | FText t, 0 => Some t
        | _, _ => if Nat.ltb (fp_ob p) (fp_oe p) then Some (utf8_lossy (get_range raw (fp_ob p) (fp_oe p))) else None
        end
    | _, FText t => Some t
    | BtContent _, FHtml t => Some t
    | BtText, FHtml t => Some (h2t t)
    | BtText, FBinary bytes => if is_xml p then Some (h2t (from_utf8 bytes)) else None
    | BtContent _, FBinary bytes => Some (utf8_lossy bytes)
    | BtText, _ => None
    end.
End B.

(** mime.rs 60-140 [find_nested_parts]: the parts visited, each with [message.raw_message] of the message
    it belongs to. *)
Fixpoint fdeep_go (fuel : nat) (raw : list N) (parts : list fpart) (iter : list nat)
         (stack : list (list nat * option (list N * list fpart))) : option (list (list N * fpart)) :=
  match fuel with
  | 0 => None
  | S f =>
      match iter with
      | id :: iter' =>
          match nth_error parts id with
          | None => fdeep_go f raw parts iter' stack
          | Some p =>
              option_map (cons (raw, p))
                (match fp_body p with
                 | FMulti subs => fdeep_go f raw parts subs ((iter', None) :: stack)
                 | FMessage raw1 ps => fdeep_go f raw1 ps [0] ((iter', Some (raw, parts)) :: stack)
                 | _ => fdeep_go f raw parts iter' stack
                 end)
          end
      | [] => match stack with
              | [] => Some []
              | (i, None) :: s => fdeep_go f raw parts i s
              | (i, Some (r, ps)) :: s => fdeep_go f r ps i s
              end
      end
  end.
(** mime.rs 60-140 [find_nested_parts]. *)
Definition fdeep (raw : list N) (parts : list fpart) (current : nat) : option (list (list N * fpart)) :=
  fdeep_go (3 * list_sum (map part_size (map view parts)) + 2) raw parts [current] [].

Section T.
  Variable L : rustlib.
  Variable rx : text -> text -> option (list (option text)).
  Variable h2t : text -> text.
  (** test_body.rs 72-223: the body test without the subject option, over the bytes.  [Message.body_test]
      is this with the transform left open; the model of a run uses that one. *)
  Definition body_test_full (raw : list N) (parts : list fpart) (current : nat) (filter_ : list ctfilter)
             (bt : bodytransform) (c : comparator) (m : mtype) (is_not : bool) (keys : list var) : option tres :=
    option_map (fun ps =>
      let ps := filter (fun rp => passes filter_ (view (snd rp))) ps in
      match m with
      | MCount r =>
          TBool (xorb (existsb (fun k => rel_number r (NInt (Z.of_nat (length ps))) (v_number L k)) keys) is_not) []
      | _ =>
          match values_loop L rx c (match m with MMatches _ => MMatches 0 | MRegex _ => MRegex 0 | m => m end)
                  (flat_map (fun rp => match body_text h2t bt (fst rp) (snd rp) with Some t => [t] | None => [] end) ps)
                  keys [] with
          | CPanic => TPanic
          | CRes b _ => TBool (xorb b is_not) []
          end
      end) (fdeep raw parts current).
End T.
