(** Specification: what a body test searches. *)
From Verif Require Import Base Lib Utf8 Address Var Value Message Mime Sieve Build DecodeSpec.

(** The parts at and below a part, nested messages included, each with the bytes of
    the message it belongs to. *)
Inductive within (raw : list N) (parts : list fpart) : nat -> list N -> fpart -> Prop :=
| wi_self i p : nth_error parts i = Some p -> within raw parts i raw p
| wi_sub i p subs j raw' q :
    nth_error parts i = Some p -> fp_body p = FMulti subs -> In j subs ->
    within raw parts j raw' q -> within raw parts i raw' q
| wi_nested i p raw1 ps raw' q :
    nth_error parts i = Some p -> fp_body p = FMessage raw1 ps ->
    within raw1 ps 0 raw' q -> within raw parts i raw' q.

(** The bytes of [raw] from [a] up to [b]; there are none if these are no positions of [raw]. *)
Definition bytes_at (raw : list N) (a b : nat) (l : list N) : Prop :=
  (exists x z, raw = x ++ l ++ z /\ length x = a /\ length (x ++ l) = b) \/
  (l = [] /\ ~ (a <= b <= length raw)).
(** Bytes read as a text; ill-formed ones give no text at all. *)
Definition reads (bs : list N) (t : text) : Prop :=
  (Forall scalar t /\ utf8 t = bs) \/ (t = [] /\ forall u, Forall scalar u -> utf8 u <> bs).

Definition occurs (sep s : text) : Prop := exists x y, s = x ++ sep ++ y.
(** [s] is [x], then the first [sep], then [y]. *)
Definition first_cut (sep s x y : text) : Prop :=
  s = x ++ sep ++ y /\ forall x' y', s = x' ++ sep ++ y' -> length x <= length x'.
(** [s] is [x], then the last [sep], then [y]. *)
Definition last_cut (sep s x y : text) : Prop :=
  s = x ++ sep ++ y /\ forall x' y', s = x' ++ sep ++ y' -> length x' <= length x.

(** A line of a body that starts with two hyphens and the boundary. *)
Definition delimiter (b : text) : text := (10%N :: lit "--") ++ b.
(** What stands before the first delimiter line of [body] and after the last closing one. *)
Inductive outside (b body : text) : text -> Prop :=
| out_none : ~ occurs (delimiter b) body -> outside b body []
| out_open pro rest :
    first_cut (delimiter b) body pro rest -> ~ occurs (delimiter b ++ lit "--") rest -> outside b body pro
| out_both pro rest inside epi :
    first_cut (delimiter b) body pro rest -> last_cut (delimiter b ++ lit "--") rest inside epi ->
    outside b body (pro ++ epi).

(** The boundary named by the type of a part. *)
Definition boundary_is (p : fpart) (b : text) : Prop :=
  match p with
  | FPart _ (Some ct) _ _ _ _ _ =>
      exists before v after, ct_attrs ct = Some (before ++ (lit "boundary", v) :: after) /\ v = b /\
        (forall a, In a before -> fst a <> lit "boundary")
  | _ => False
  end.
(** The type is application/ and something with [xml] in it. *)
Definition xml_type (p : fpart) : Prop :=
  match p with
  | FPart _ (Some ct) _ _ _ _ _ =>
      lower_text (ct_type ct) = lit "application" /\ exists st, ct_subtype ct = Some st /\ occurs (lit "xml") st
  | _ => False
  end.

Section S.
  Variable h2t : text -> text.
  (** The text that is searched in a part, for each of ':raw', ':text' and ':content'. *)
  Inductive searched (raw : list N) (p : fpart) : bodytransform -> text -> Prop :=
  (* :raw, a part that was put there by a script *)
  | se_raw_new t : fp_body p = FText t -> fp_ob p = 0 -> searched raw p BtRaw t
  (* :raw, the bytes of the body as they are *)
  | se_raw bs t :
      ((exists u, fp_body p = FText u) -> fp_ob p <> 0) -> fp_ob p < fp_oe p ->
      bytes_at raw (fp_ob p) (fp_oe p) bs -> decodes bs t -> searched raw p BtRaw t
  (* :text *)
  | se_text t : fp_body p = FText t -> searched raw p BtText t
  | se_text_html t : fp_body p = FHtml t -> searched raw p BtText (h2t t)
  | se_text_xml bs t : fp_body p = FBinary bs -> xml_type p -> reads bs t -> searched raw p BtText (h2t t)
  (* :content *)
  | se_content types t : fp_body p = FText t \/ fp_body p = FHtml t -> searched raw p (BtContent types) t
  | se_content_bytes types bs t : fp_body p = FBinary bs -> decodes bs t -> searched raw p (BtContent types) t
  | se_content_message types raw1 q ps bs t :      (* the header of the nested message *)
      fp_body p = FMessage raw1 (q :: ps) -> bytes_at raw (fp_oh q) (fp_ob q) bs -> decodes bs t ->
      searched raw p (BtContent types) t
  | se_content_multi types subs b bs body t :      (* prologue and epilogue *)
      fp_body p = FMulti subs -> boundary_is p b -> bytes_at raw (fp_ob p) (fp_oe p) bs -> reads bs body ->
      outside b body t -> searched raw p (BtContent types) t
  | se_content_unbounded types subs bs t :         (* no boundary is named *)
      fp_body p = FMulti subs -> (forall b, ~ boundary_is p b) -> bytes_at raw (fp_ob p) (fp_oe p) bs ->
      decodes bs t -> searched raw p (BtContent types) t.
End S.

(** The type of a part: the one its header names, or the one of its contents. *)
Definition type_of (p : fpart) (ty sub : text) : Prop :=
  match p with
  | FPart _ (Some ct) _ _ _ _ _ =>
      ct_type ct = ty /\ ((exists s, ct_subtype ct = Some s /\ s = sub) \/ (ct_subtype ct = None /\ sub = []))
  | FPart _ None b _ _ _ _ =>
      match b with
      | FText _ => ty = lit "text" /\ sub = lit "plain"
      | FHtml _ => ty = lit "text" /\ sub = lit "html"
      | FBinary _ => ty = lit "application" /\ sub = lit "octet-stream"
      | FMulti _ => ty = lit "multipart" /\ sub = lit "mixed"
      | FMessage _ _ => ty = lit "message" /\ sub = lit "rfc822"
      end
  end.
(** [p] has one of the types asked for: a type alone, or a type and a subtype; nothing
    asked for is every type. *)
Definition chosen (types : list ctfilter) (p : fpart) : Prop :=
  types = [] \/ exists ty sub, type_of p ty sub /\
    ((exists t, In (CtType t) types /\ lower_text t = lower_text ty) \/
     (exists t s, In (CtTypeSubtype t s) types /\ lower_text t = lower_text ty /\ lower_text s = lower_text sub)).
(** How a type is written: one word, or two with a slash between them. *)
Definition written_type (s : text) (f : ctfilter) : Prop :=
  match f with
  | CtType t => s = t /\ t <> [] /\ ~ In 47%N t
  | CtTypeSubtype t u => s = t ++ 47%N :: u /\ t <> [] /\ u <> [] /\ ~ In 47%N t /\ ~ In 47%N u
  end.
