(** * What a header test compares *)
From Verif Require Import Base Lib Message.

(** The header fields of free text, whose text is taken as it was parsed. *)
Definition free_text (name : text) : Prop :=
  exists n, In n [lit "Subject"; lit "Comments"; lit "Content-Description"; lit "Content-Location";
                  lit "Content-Transfer-Encoding"] /\ lower_text name = lower_text n.
(** The content type a field holds; a field added by the script is parsed for it. *)
Definition holds_type (M : mailparser) (h : header) (v : hvalue) : Prop :=
  (h_raw h = true /\ v = h_val h) \/ (h_raw h = false /\ exists t, h_val h = HText t /\ v = parse_ct M t).
(** [shows M h o v]: [v] is a text that a test with the options [o] of RFC 5703
    compares for the field [h]. *)
Inductive shows (M : mailparser) (h : header) : mimeopts -> text -> Prop :=
| sh_text t : h_raw h = true -> h_val h = HText t -> free_text (h_name h) -> shows M h MoNone t
| sh_plain : h_raw h = true -> ~ (free_text (h_name h) /\ exists t, h_val h = HText t) -> shows M h MoNone (h_plain h)
| sh_added t : h_raw h = false -> h_val h = HText t -> shows M h MoNone t
| sh_type ct : holds_type M h (HContentType ct) -> shows M h MoType (ct_type ct)
| sh_subtype ct s : holds_type M h (HContentType ct) -> ct_subtype ct = Some s -> shows M h MoSubtype s
| sh_no_subtype ct : holds_type M h (HContentType ct) -> ct_subtype ct = None -> shows M h MoSubtype []
| sh_full ct s : holds_type M h (HContentType ct) -> ct_subtype ct = Some s ->
    shows M h MoContentType (ct_type ct ++ lit "/" ++ s)
| sh_half ct : holds_type M h (HContentType ct) -> ct_subtype ct = None -> shows M h MoContentType (ct_type ct)
| sh_param params ct attrs p n v : holds_type M h (HContentType ct) -> ct_attrs ct = Some attrs ->
    In p params -> In (n, v) attrs -> lower_text p = lower_text n -> shows M h (MoParam params) v
  (* (+) the empty text, after the parameters *)
| sh_params_end params ct : holds_type M h (HContentType ct) -> shows M h (MoParam params) []
  (* a field that holds no content type *)
| sh_none o v : holds_type M h v -> (forall ct, v <> HContentType ct) -> o <> MoNone -> shows M h o [].
